(** * DisplayViews: what the texts of src/grammar.rs, src/first.rs, src/lr1.rs, src/lr_common.rs and src/lr0.rs determine *)
From Coq Require Import Ascii.
From Verif Require Import NamesProofs MessageProofs PropertiesMessage.
From Verif Require Export DisplayProofs.
Local Open Scope string_scope.

Definition sym_start (c : ascii) : bool := name_char c || Ascii.eqb c """".

Lemma show_t_inv {A} (g : grammar A) t s : show_t g t = Ok s -> exists x, get_terminal g t = Some x /\ s = debug_str x.
Proof. unfold show_t. destruct (get_terminal g t) as [x|]; cbn; intro H; [injection H as <-; eauto|discriminate]. Qed.
Lemma show_nt_inv {A} (g : grammar A) n s : show_nt g n = Ok s -> exists N, get_non_terminal g n = Some N /\ s = nt_name N.
Proof. unfold show_nt. destruct (get_non_terminal g n) as [N|]; cbn; intro H; [injection H as <-; eauto|discriminate]. Qed.
Lemma named_some {A} (g : grammar A) X s : show_symbol g X = Ok s -> exists x, named g X = Some x.
Proof.
  destruct X as [n|t]; cbn; intro H; [apply show_nt_inv in H; destruct H as (N & -> & _)|apply show_t_inv in H; destruct H as (x & -> & _)]; cbn; eauto.
Qed.
Lemma show_t_starts {A} (g : grammar A) t s a : show_t g t = Ok s -> exists r, s ++ a = String """" r.
Proof. intro H. apply show_t_inv in H. destruct H as (x & _ & ->). cbn. eauto. Qed.
Lemma show_nt_starts {A} (g : grammar A) n s a : identifiers g -> show_nt g n = Ok s -> starts name_char (s ++ a) = true.
Proof.
  intros Hg H. apply show_nt_inv in H. destruct H as (N & H & ->). destruct (Hg _ _ H) as (H1 & H2). destruct (nt_name N) as [|c r]; [contradiction|].
  cbn in *. apply andb_true_iff in H2. tauto.
Qed.
Lemma show_symbol_starts {A} (g : grammar A) X s a : identifiers g -> show_symbol g X = Ok s -> starts sym_start (s ++ a) = true.
Proof.
  intros Hg H. destruct X as [n|t]; cbn in H.
  - apply (show_nt_starts _ _ _ a Hg) in H. destruct (s ++ a) as [|c r]; [discriminate|]. cbn in *. unfold sym_start. rewrite H. reflexivity.
  - apply (show_t_starts _ _ _ a) in H. destruct H as (r & ->). reflexivity.
Qed.

Section Two.
Context {A A' : Type}.
Variables (g : grammar A) (g' : grammar A').
Hypothesis Hg : identifiers g.
Hypothesis Hg' : identifiers g'.
Definition same_symbol (X X' : symbol) : Prop := named g X = named g' X'.
Definition same_nt (n n' : nat) : Prop := named g (NT n) = named g' (NT n').
Definition same_t (t t' : nat) : Prop := named g (T t) = named g' (T t').

Lemma nt_splits : splits (show_nt g) (show_nt g') same_nt (fun a => negb (starts name_char a)).
Proof.
  intros n n' s s' a b H H' Ha Hb E. apply show_nt_inv in H, H'. destruct H as (N & H & ->), H' as (N' & H' & ->).
  destruct (name_split (nt_name N) (nt_name N') a b) as (E1 & E2); auto; try (apply negb_true_iff; assumption); try (eapply Hg; eauto); try (eapply Hg'; eauto).
  split; [|exact E2]. unfold same_nt. cbn. rewrite H, H'. cbn. congruence.
Qed.
Lemma t_splits : splits (show_t g) (show_t g') same_t any.
Proof.
  intros t t' s s' a b H H' _ _ E. apply show_t_inv in H, H'. destruct H as (x & H & ->), H' as (x' & H' & ->). apply debug_split in E. destruct E as (-> & ->).
  split; [|reflexivity]. unfold same_t. cbn. rewrite H, H'. reflexivity.
Qed.
Lemma symbol_splits : splits (show_symbol g) (show_symbol g') same_symbol (fun a => negb (starts name_char a)).
Proof.
  intros [n|t] [n'|t'] s s' a b H H' Ha Hb E.
  - exact (nt_splits n n' s s' a b H H' Ha Hb E).
  - exfalso. apply (show_nt_starts _ _ _ a Hg) in H. apply (show_t_starts _ _ _ b) in H'. destruct H' as (r & K). rewrite E, K in H. discriminate.
  - exfalso. apply (show_nt_starts _ _ _ b Hg') in H'. apply (show_t_starts _ _ _ a) in H. destruct H as (r & K). rewrite <- E, K in H'. discriminate.
  - exact (t_splits t t' s s' a b H H' eq_refl eq_refl E).
Qed.

(** A text that goes on with neither a symbol nor a space *)
Definition row_end (a : string) : bool := negb (starts sym_start a) && negb (prefix " " a).
Lemma row_splits : splits (sepd " " (show_symbol g)) (sepd " " (show_symbol g')) (Forall2 same_symbol) row_end.
Proof.
  intros l l' s s' a b H H' Ha Hb E.
  assert (K : forall c, row_end c = true -> (negb (starts name_char c) && negb (starts sym_start c) && negb (prefix " " c))%bool = true).
  { intros c Hc. unfold row_end in Hc. apply andb_true_iff in Hc. destruct Hc as (H1 & H2). rewrite H1, H2. rewrite andb_true_r. destruct c as [|x c]; [reflexivity|].
    cbn in *. unfold sym_start in H1. destruct (name_char x); [discriminate|reflexivity]. }
  refine (sepd_splits " " _ _ _ _ (starts sym_start) symbol_splits _ _ _ l l' s s' a b H H' (K a Ha) (K b Hb) E); [..|reflexivity].
  - intros X t c Ht. exact (show_symbol_starts g X t c Hg Ht).
  - intros X t c Ht. exact (show_symbol_starts g' X t c Hg' Ht).
Qed.
End Two.

Lemma show_production_eq {A} (g : grammar A) p : show_production g p = sepd " " (show_symbol g) (rhs p).
Proof.
  unfold show_production, enumerate. rewrite <- (sepd_eq " " (show_symbol g) (List.length (rhs p)) (rhs p) 0 eq_refl). apply prints_ext. intros x _.
  unfold rhs. rewrite map_length. reflexivity.
Qed.

(** ** Symbols with the cursor among them *)
Definition next_cur (k : option nat) : option nat := match k with Some (Datatypes.S k) => Some k | _ => None end.
Definition bar (k : option nat) : string := match k with Some 0 => "|" | _ => "" end.
Fixpoint cur {A} (g : grammar A) (l : list symbol) (k : option nat) : res string :=
  match l with
  | [] => Ok (bar k)
  | X :: r => let* s := show_symbol g X in let* t := cur g r (next_cur k) in Ok (bar k ++ s ++ (match r with [] => "" | _ => " " end) ++ t)
  end.
Lemma cur_eq {A} (g : grammar A) n k r : forall m, n = m + List.length r ->
  (let* ss := prints (fun x => let* s := show_symbol g (snd x) in
                               Ok ((if Nat.eqb (fst x) k then "|" else "") ++ s ++ if negb (Nat.eqb (fst x) (n - 1)) then " " else ""))
                     (combine (seq m (List.length r)) r) in
   Ok (ss ++ if Nat.eqb k n then "|" else "")) = cur g r (if Nat.leb m k then Some (k - m) else None).
Proof.
  induction r as [|X r IH]; intros m Hn.
  - cbn in *. assert (E : Nat.eqb k n = match (if Nat.leb m k then Some (k - m) else None) with Some 0 => true | _ => false end).
    { destruct (Nat.leb_spec m k) as [K|K]; [destruct (k - m) as [|d] eqn:Ed; [apply Nat.eqb_eq|apply Nat.eqb_neq]; lia|apply Nat.eqb_neq; lia]. }
    rewrite E. destruct (Nat.leb m k); [destruct (k - m)|]; reflexivity.
  - cbn [List.length seq combine cur]. rewrite prints_cons. cbn [fst snd]. cbn [List.length] in Hn. specialize (IH (Datatypes.S m) ltac:(lia)).
    replace (next_cur (if Nat.leb m k then Some (k - m) else None)) with (if Nat.leb (Datatypes.S m) k then Some (k - Datatypes.S m) else None).
    2:{ destruct (Nat.leb_spec m k) as [K|K], (Nat.leb_spec (Datatypes.S m) k) as [K'|K']; try lia; cbn.
        - destruct (k - m) as [|d] eqn:Ed; [lia|]. f_equal. lia.
        - replace (k - m) with 0 by lia. reflexivity.
        - reflexivity. }
    rewrite <- IH. destruct (show_symbol g X) as [s|p|]; cbn [bind]; auto. destruct (prints _ _) as [t|p|]; cbn [bind]; auto.
    rewrite !str_assoc. do 2 f_equal.
    + destruct (Nat.leb_spec m k) as [K|K]; cbn.
      * destruct (Nat.eqb_spec m k) as [->|Hne]; [rewrite Nat.sub_diag; reflexivity|]. destruct (k - m) as [|d] eqn:Ed; [lia|reflexivity].
      * destruct (Nat.eqb_spec m k); [lia|reflexivity].
    + do 2 f_equal. destruct r as [|Y r]; cbn [List.length] in Hn.
      * replace (n - 1) with m by lia. rewrite Nat.eqb_refl. reflexivity.
      * assert (E : Nat.eqb m (n - 1) = false) by (apply Nat.eqb_neq; lia). rewrite E. reflexivity.
Qed.
Lemma show_cursor_eq {A} (g : grammar A) l k : show_cursor g l k = cur g l (Some k).
Proof. unfold show_cursor, enumerate. rewrite (cur_eq g (List.length l) k l 0 eq_refl). cbn. rewrite Nat.sub_0_r. reflexivity. Qed.

Section Two2.
Context {A A' : Type}.
Variables (g : grammar A) (g' : grammar A').
Hypothesis Hg : identifiers g.
Hypothesis Hg' : identifiers g'.

Definition in_row (l : list symbol) (k : option nat) : Prop := match k with Some k => k <= List.length l | None => True end.
Definition cur_end (a : string) : bool := row_end a && negb (prefix "|" a).
Lemma cur_starts {B} (h : grammar B) X r k s : identifiers h -> cur h (X :: r) k = Ok s -> forall a, starts (fun c => sym_start c || Ascii.eqb c "|"%char) (s ++ a) = true.
Proof.
  intros Hh H a. cbn [cur] in H. inv_bind H. rewrite !str_assoc. destruct k as [[|k]|]; cbn [bar append]; [reflexivity| |];
    (pose proof (show_symbol_starts h X s0 ((match r with [] => "" | _ => " " end) ++ s1 ++ a) Hh E) as K; destruct (s0 ++ _) as [|c t]; [discriminate|];
     cbn in *; rewrite K; reflexivity).
Qed.
Lemma prefix_first c s : prefix (String c "") s = starts (fun d => Ascii.eqb c d) s.
Proof.
  destruct s as [|d s]; cbn; [reflexivity|]. destruct (ascii_dec c d) as [->|n]; [rewrite Ascii.eqb_refl; destruct s; reflexivity|].
  symmetry. apply Ascii.eqb_neq. exact n.
Qed.
Lemma cur_splits l : forall l' k k' s s' a b, in_row l k -> in_row l' k' -> cur g l k = Ok s -> cur g' l' k' = Ok s' -> cur_end a = true -> cur_end b = true ->
  s ++ a = s' ++ b -> Forall2 (same_symbol g g') l l' /\ k = k' /\ a = b.
Proof.
  assert (Hend : forall c, cur_end c = true -> starts sym_start c = false /\ starts name_char c = false /\ prefix " " c = false /\ prefix "|" c = false).
  { intros c H. unfold cur_end, row_end in H. rewrite !andb_true_iff, !negb_true_iff in H. destruct H as ((H1 & H2) & H3). repeat split; auto.
    destruct c as [|x c]; [reflexivity|]. cbn in *. unfold sym_start in H1. destruct (name_char x); [discriminate|reflexivity]. }
  (* what a row cannot go on with *)
  assert (Hcur : forall B (h : grammar B) r k t c, identifiers h -> cur h r k = Ok t -> r <> [] -> prefix " " (t ++ c) = false).
  { intros B h r k t c Hh H Hr. destruct r as [|Y r]; [contradiction|]. pose proof (cur_starts h Y r k t Hh H c) as K. rewrite prefix_first.
    destruct (t ++ c) as [|x z]; [reflexivity|]. cbn [starts] in *. destruct (Ascii.eqb_spec " " x) as [<-|]; [discriminate|reflexivity]. }
  (* a bar or none *)
  assert (Hb0 : forall k k' u v, prefix "|" u = false -> prefix "|" v = false -> bar k ++ u = bar k' ++ v ->
            (match k with Some 0 => true | _ => false end) = (match k' with Some 0 => true | _ => false end) /\ u = v).
  { intros k k' u v Hu Hv E. destruct k as [[|k]|], k' as [[|k']|]; cbn in *; try (split; [reflexivity|congruence]);
      try (subst u; cbn in Hu; destruct (ascii_dec "|" "|") as [_|n]; [destruct v; discriminate|contradiction]);
      try (subst v; cbn in Hv; destruct (ascii_dec "|" "|") as [_|n]; [destruct u; discriminate|contradiction]). }
  assert (Hnb : forall B (h : grammar B) X t c, identifiers h -> show_symbol h X = Ok t -> prefix "|" (t ++ c) = false).
  { intros B h X t c Hh H. pose proof (show_symbol_starts h X t c Hh H) as K. rewrite prefix_first. destruct (t ++ c) as [|x z]; [reflexivity|]. cbn [starts] in *.
    destruct (Ascii.eqb_spec "|" x) as [<-|]; [discriminate|reflexivity]. }
  induction l as [|X l IH]; intros [|X' l'] k k' s s' a b Hk Hk' H H' Ha Hb E; cbn [cur] in H, H'; inv_bind H; inv_bind H'; destruct (Hend _ Ha) as (A1 & A2 & A3 & A4); destruct (Hend _ Hb) as (B1 & B2 & B3 & B4).
  - apply Hb0 in E; auto. destruct E as (Ek & ->). split; [constructor|]. split; [|reflexivity].
    destruct k as [[|k]|], k' as [[|k']|]; cbn in *; try discriminate; auto; lia.
  - exfalso. rewrite !str_assoc in E. apply Hb0 in E; auto; [|exact (Hnb _ g' _ _ _ Hg' E0)]. destruct E as (_ & E).
    pose proof (show_symbol_starts g' X' s ((match l' with [] => "" | _ => " " end) ++ s0 ++ b) Hg' E0) as K. rewrite <- E in K. rewrite A1 in K. discriminate.
  - exfalso. rewrite !str_assoc in E. apply Hb0 in E; auto; [|exact (Hnb _ g _ _ _ Hg E0)]. destruct E as (_ & E).
    pose proof (show_symbol_starts g X s0 ((match l with [] => "" | _ => " " end) ++ s1 ++ a) Hg E0) as K. rewrite E in K. rewrite B1 in K. discriminate.
  - rewrite !str_assoc in E. apply Hb0 in E; [|exact (Hnb _ g _ _ _ Hg E0)|exact (Hnb _ g' _ _ _ Hg' E2)]. destruct E as (Ek & E).
    assert (Hgo : forall B (h : grammar B) (r : list symbol) q t c, identifiers h -> cur h r q = Ok t -> cur_end c = true ->
              (r = [] -> starts name_char (t ++ c) = false) -> negb (starts name_char (match r with [] => "" | _ => " " end ++ t ++ c)) = true).
    { intros B h [|Y r] q t c Hh Ht Hc Hn; [change (negb (starts name_char (t ++ c)) = true); rewrite (Hn eq_refl); reflexivity|reflexivity]. }
    assert (Hn1 : forall B (h : grammar B) (r : list symbol) q t c, cur h r q = Ok t -> cur_end c = true -> r = [] -> starts name_char (t ++ c) = false).
    { intros B h r q t c Ht Hc ->. cbn in Ht. injection Ht as <-. destruct (Hend _ Hc) as (_ & C2 & _). destruct q as [[|q]|]; cbn; auto. }
    eapply (symbol_splits g g' Hg Hg') in E; eauto. destruct E as (HX & E).
    assert (Hcase : (l = [] /\ l' = [] /\ s1 ++ a = s2 ++ b) \/ (l <> [] /\ l' <> [] /\ s1 ++ a = s2 ++ b)).
    { assert (Hno : forall B (h : grammar B) q t c z, cur h [] q = Ok t -> cur_end c = true -> t ++ c = " " ++ z -> False).
      { intros B h q t c z Ht Hc Ez. cbn in Ht. injection Ht as <-. destruct (Hend _ Hc) as (_ & _ & C3 & _). destruct q as [[|q]|]; cbn in Ez; try discriminate;
          subst c; cbn in C3; destruct (ascii_dec " " " ") as [_|n]; try contradiction; destruct z; discriminate. }
      destruct l as [|Y l], l' as [|Y' l'].
      - left. auto.
      - exfalso. cbn [append] in E. eapply (Hno _ g); [exact E1|exact Ha|exact E].
      - exfalso. symmetry in E. cbn [append] in E. eapply (Hno _ g'); [exact E3|exact Hb|exact E].
      - right. split; [discriminate|split; [discriminate|]]. apply app_cancel in E. exact E. }
    assert (E' : s1 ++ a = s2 ++ b) by tauto.
    destruct (IH l' (next_cur k) (next_cur k') s1 s2 a b) as (HF & Enext & Eab); auto.
    + destruct k as [[|k]|]; cbn in *; auto. lia.
    + destruct k' as [[|k']|]; cbn in *; auto. lia.
    + split; [constructor; auto|split; [|exact Eab]]. destruct k as [[|k]|], k' as [[|k']|]; cbn in *; try discriminate; auto. congruence.
Qed.
End Two2.
