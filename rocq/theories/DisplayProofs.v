(** * DisplayProofs: printed texts can be read back *)
From Coq Require Import Ascii.
From Verif Require Import NamesProofs MessageProofs PropertiesMessage.
From Verif Require Export Display DisplaySpec.
Local Open Scope string_scope.

(** ** Splitting a text *)
(** Whatever [f] prints and whatever [f'] prints, followed by texts satisfying [ok]: they are the same only if the printed things
    are related, and what follows is the same. *)
Definition splits {X X'} (f : X -> res string) (f' : X' -> res string) (R : X -> X' -> Prop) (ok : string -> bool) : Prop :=
  forall x x' s s' a b, f x = Ok s -> f' x' = Ok s' -> ok a = true -> ok b = true -> s ++ a = s' ++ b -> R x x' /\ a = b.
Definition splits_at {X X'} (f : X -> res string) (f' : X' -> res string) (R : X -> X' -> Prop) (ok : string -> bool) (x : X) (x' : X') : Prop :=
  forall s s' a b, f x = Ok s -> f' x' = Ok s' -> ok a = true -> ok b = true -> s ++ a = s' ++ b -> R x x' /\ a = b.
Definition any (s : string) : bool := true.
Definition ends (s : string) : bool := match s with "" => true | _ => false end.
Definition starts (P : ascii -> bool) (s : string) : bool := match s with "" => false | String c _ => P c end.

Lemma str_app_nil (a : string) : a ++ "" = a.
Proof. induction a; cbn; congruence. Qed.
Lemma concat_cons s l : concat "" (s :: l) = s ++ concat "" l.
Proof. destruct l; cbn; [symmetry; apply str_app_nil|reflexivity]. Qed.
Lemma prints_nil {X} (f : X -> res string) : prints f [] = Ok "".
Proof. reflexivity. Qed.
Lemma prints_cons {X} (f : X -> res string) x l : prints f (x :: l) = let* s := f x in let* t := prints f l in Ok (s ++ t).
Proof.
  unfold prints. cbn [mapM]. destruct (f x) as [s|p|]; cbn [bind]; auto. destruct (mapM f l) as [l'|p|]; cbn [bind]; auto.
  rewrite concat_cons. reflexivity.
Qed.
Lemma prints_app {X} (f : X -> res string) l m : prints f (l ++ m)%list = let* s := prints f l in let* t := prints f m in Ok (s ++ t).
Proof.
  induction l as [|x l IH]; cbn [app].
  - rewrite prints_nil. cbn [bind]. destruct (prints f m); reflexivity.
  - rewrite !prints_cons, IH. destruct (f x) as [s|p|]; cbn [bind]; auto. destruct (prints f l) as [t|p|]; cbn [bind]; auto.
    destruct (prints f m) as [u|p|]; cbn [bind]; auto. rewrite str_assoc. reflexivity.
Qed.
Lemma prints_map {X Y} (h : Y -> X) (f : X -> res string) l : prints f (map h l) = prints (fun y => f (h y)) l.
Proof. induction l as [|y l IH]; cbn [map]; rewrite ?prints_nil, ?prints_cons, ?IH; reflexivity. Qed.
Lemma prints_ext {X} (f f' : X -> res string) l : (forall x, In x l -> f x = f' x) -> prints f l = prints f' l.
Proof. induction l as [|x l IH]; intro H; [reflexivity|]. rewrite !prints_cons, IH by (intros; apply H; right; auto). rewrite H by (left; auto). reflexivity. Qed.

Ltac inv_bind H :=
  match type of H with
  | bind ?e _ = Ok _ => let s := fresh "s" in let E := fresh "E" in destruct e as [s|?|] eqn:E; cbn [bind] in H; [|discriminate H|discriminate H]; inv_bind H
  | Ok _ = Ok _ => injection H as <-
  | _ => idtac
  end.

(** A list of printed things, each starting with [st] and the text after them not *)
Lemma prints_splits_at {X X'} (f : X -> res string) (f' : X' -> res string) R ok st l : forall l',
  (forall x x', In x l -> In x' l' -> splits_at f f' R ok x x') -> (forall x s a, f x = Ok s -> st (s ++ a) = true) -> (forall x s a, f' x = Ok s -> st (s ++ a) = true) ->
  (forall s, st s = true -> ok s = true) -> splits_at (prints f) (prints f') (Forall2 R) (fun a => ok a && negb (st a)) l l'.
Proof.
  induction l as [|x l IH]; intros [|x' l'] Hf Hst Hst' Hok s s' a b H H' Ha Hb E; try rewrite prints_nil in H; try rewrite prints_nil in H'; try rewrite prints_cons in H; try rewrite prints_cons in H'; inv_bind H; inv_bind H';
    apply andb_true_iff in Ha; apply andb_true_iff in Hb; destruct Ha as (Ha1 & Ha2); destruct Hb as (Hb1 & Hb2).
  - split; [constructor|exact E].
  - exfalso. cbn in E. subst a. rewrite str_assoc in Ha2. rewrite (Hst' _ _ _ E0) in Ha2. discriminate.
  - exfalso. cbn in E. subst b. rewrite str_assoc in Hb2. rewrite (Hst _ _ _ E0) in Hb2. discriminate.
  - rewrite !str_assoc in E.
    assert (K : ok (s1 ++ a) = true) by (destruct l as [|y l]; [rewrite prints_nil in E1; injection E1 as <-; exact Ha1|rewrite prints_cons in E1; inv_bind E1; rewrite str_assoc; eauto]).
    assert (K' : ok (s2 ++ b) = true) by (destruct l' as [|y l']; [rewrite prints_nil in E3; injection E3 as <-; exact Hb1|rewrite prints_cons in E3; inv_bind E3; rewrite str_assoc; eauto]).
    destruct (Hf x x' (or_introl eq_refl) (or_introl eq_refl) _ _ _ _ E0 E2 K K' E) as (HR & E').
    destruct (IH l' (fun y y' Hy Hy' => Hf y y' (or_intror Hy) (or_intror Hy')) Hst Hst' Hok _ _ a b E1 E3) as (HF & Eab); [rewrite Ha1, Ha2; reflexivity|rewrite Hb1, Hb2; reflexivity|exact E'|].
    split; [constructor; assumption|exact Eab].
Qed.

Lemma prints_splits {X X'} (f : X -> res string) (f' : X' -> res string) R ok st :
  splits f f' R ok -> (forall x s a, f x = Ok s -> st (s ++ a) = true) -> (forall x s a, f' x = Ok s -> st (s ++ a) = true) ->
  (forall s, st s = true -> ok s = true) -> splits (prints f) (prints f') (Forall2 R) (fun a => ok a && negb (st a)).
Proof. intros Hf H1 H2 H3 l l'. apply (prints_splits_at f f' R ok st l l'); auto. intros x x' _ _. exact (Hf x x'). Qed.
(** The same, of lines: nothing is asked of what follows a line *)
Lemma lines_splits {X X'} (f : X -> res string) (f' : X' -> res string) R st :
  splits f f' R any -> (forall x s a, f x = Ok s -> st (s ++ a) = true) -> (forall x s a, f' x = Ok s -> st (s ++ a) = true) ->
  splits (prints f) (prints f') (Forall2 R) (fun a => negb (st a)).
Proof. intros Hf H1 H2. exact (prints_splits f f' R any st Hf H1 H2 (fun _ _ => eq_refl)). Qed.

Lemma lines_splits_at {X X'} (f : X -> res string) (f' : X' -> res string) R st l l' :
  (forall x x', In x l -> In x' l' -> splits_at f f' R any x x') -> (forall x s a, f x = Ok s -> st (s ++ a) = true) ->
  (forall x s a, f' x = Ok s -> st (s ++ a) = true) -> splits_at (prints f) (prints f') (Forall2 R) (fun a => negb (st a)) l l'.
Proof. intros Hf H1 H2. exact (prints_splits_at f f' R any st l l' Hf H1 H2 (fun _ _ => eq_refl)). Qed.

(** Things with separators between them *)
Fixpoint sepd {X} (sep : string) (f : X -> res string) (l : list X) : res string :=
  match l with
  | [] => Ok ""
  | x :: r => let* s := f x in let* t := sepd sep f r in Ok (s ++ (match r with [] => "" | _ => sep end) ++ t)
  end.
Lemma sepd_eq {X} sep (f : X -> res string) n r : forall m, n = m + List.length r ->
  prints (fun x => let* s := f (snd x) in Ok (s ++ if negb (Nat.eqb (fst x) (n - 1)) then sep else "")) (combine (seq m (List.length r)) r) = sepd sep f r.
Proof.
  induction r as [|x r IH]; intros m Hn; [reflexivity|]. cbn [List.length seq combine sepd]. rewrite prints_cons. cbn [fst snd].
  rewrite (IH (Datatypes.S m)) by (cbn [List.length] in Hn; lia). destruct (f x) as [s|p|]; cbn [bind]; auto. destruct (sepd sep f r) as [t|p|] eqn:Et; cbn [bind]; auto.
  rewrite str_assoc. do 2 f_equal. destruct r as [|y r].
  - cbn in Hn. replace (n - 1) with m by lia. rewrite Nat.eqb_refl. reflexivity.
  - cbn [List.length] in Hn. assert (E : Nat.eqb m (n - 1) = false) by (apply Nat.eqb_neq; lia). rewrite E. reflexivity.
Qed.
Lemma sepd_splits {X X'} sep (f : X -> res string) (f' : X' -> res string) R ok st :
  splits f f' R ok -> (forall x s a, f x = Ok s -> st (s ++ a) = true) -> (forall x s a, f' x = Ok s -> st (s ++ a) = true) ->
  (forall a, ok (sep ++ a) = true) -> splits (sepd sep f) (sepd sep f') (Forall2 R) (fun a => ok a && negb (st a) && negb (prefix sep a)).
Proof.
  assert (Hpre : forall a b : string, prefix a (a ++ b) = true).
  { induction a as [|c a IH]; intro b; [destruct b; reflexivity|]. cbn. destruct (ascii_dec c c) as [_|n]; [apply IH|contradiction]. }
  intros Hf Hst Hst' Hok l. induction l as [|x l IH]; intros [|x' l'] s s' a b H H' Ha Hb E; cbn [sepd] in H, H'; inv_bind H; inv_bind H';
    apply andb_true_iff in Ha; apply andb_true_iff in Hb; destruct Ha as (Ha1 & Ha3); destruct Hb as (Hb1 & Hb3);
    apply andb_true_iff in Ha1; apply andb_true_iff in Hb1; destruct Ha1 as (Ha1 & Ha2); destruct Hb1 as (Hb1 & Hb2).
  - split; [constructor|exact E].
  - exfalso. cbn in E. subst a. rewrite str_assoc in Ha2. rewrite (Hst' _ _ _ E0) in Ha2. discriminate.
  - exfalso. cbn in E. subst b. rewrite str_assoc in Hb2. rewrite (Hst _ _ _ E0) in Hb2. discriminate.
  - rewrite !str_assoc in E.
    assert (K : ok ((match l with [] => "" | _ => sep end) ++ s1 ++ a) = true) by (destruct l as [|y l]; [cbn in E1; injection E1 as <-; exact Ha1|apply Hok]).
    assert (K' : ok ((match l' with [] => "" | _ => sep end) ++ s2 ++ b) = true) by (destruct l' as [|y l']; [cbn in E3; injection E3 as <-; exact Hb1|apply Hok]).
    destruct (Hf _ _ _ _ _ _ E0 E2 K K' E) as (HR & E').
    assert (Eb : s1 ++ a = s2 ++ b).
    { destruct l as [|y l], l' as [|y' l'].
      - exact E'.
      - exfalso. cbn in E1. injection E1 as <-. cbn [append] in E'. rewrite E' in Ha3. rewrite Hpre in Ha3. discriminate.
      - exfalso. cbn in E3. injection E3 as <-. cbn [append] in E'. rewrite <- E' in Hb3. rewrite Hpre in Hb3. discriminate.
      - apply app_cancel in E'. exact E'. }
    destruct (IH l' _ _ a b eq_refl E3) as (HF & Eab); [rewrite Ha1, Ha2, Ha3; reflexivity|rewrite Hb1, Hb2, Hb3; reflexivity|exact Eb|].
    split; [constructor; assumption|exact Eab].
Qed.

(** Numbers *)
Definition digit_char (c : ascii) : bool := Nat.leb 48 (nat_of_ascii c) && Nat.leb (nat_of_ascii c) 57.
Lemma plain_starts a : negb (starts digit_char a) = true -> starts_plain a.
Proof.
  destruct a as [|c a]; [intros _; exact Logic.I|]. cbn [starts starts_plain]. intros H [H1 H2]. unfold digit_char in H.
  apply Nat.leb_le in H1, H2. rewrite H1, H2 in H. discriminate.
Qed.
Lemma decimal_splits : splits (fun n => Ok (decimal n)) (fun n => Ok (decimal n)) eq (fun a => negb (starts digit_char a)).
Proof.
  intros n n' s s' a b H H' Ha Hb E. injection H as <-. injection H' as <-.
  apply digits_split in E; try apply decimal_digits; try (apply plain_starts; assumption). destruct E as (E & ->). split; [apply decimal_inj; exact E|reflexivity].
Qed.
Lemma decimal_split n n' a b : negb (starts digit_char a) = true -> negb (starts digit_char b) = true -> decimal n ++ a = decimal n' ++ b -> n = n' /\ a = b.
Proof. intros. eapply decimal_splits; eauto. Qed.
Lemma decimal_starts n a : starts digit_char (decimal n ++ a) = true.
Proof.
  pose proof (decimal_digits n) as H. destruct (decimal n) as [|c s] eqn:E.
  - exfalso. unfold decimal in E. revert E. generalize n at 1. intros m. cbn [decimal_fuel]. destruct (Nat.ltb n 10).
    + destruct n as [|[|[|[|[|[|[|[|[|[|]]]]]]]]]]; discriminate.
    + intro E. assert (K : forall x y : string, x ++ y = "" -> y = "") by (intros [|] y K; [exact K|discriminate]). apply K in E.
      revert E. generalize (n mod 10). intro k. destruct k as [|[|[|[|[|[|[|[|[|[|]]]]]]]]]]; discriminate.
  - cbn in *. unfold digit_char. destruct H as ((H1 & H2) & _). apply Nat.leb_le in H1, H2. rewrite H1, H2. reflexivity.
Qed.

(** Names *)
Lemma name_split (n n' a b : string) : name_text n = true -> name_text n' = true -> starts name_char a = false -> starts name_char b = false ->
  n ++ a = n' ++ b -> n = n' /\ a = b.
Proof.
  revert n'. induction n as [|c n IH]; intros [|c' n'] Hn Hn' Ha Hb E; cbn in *; auto.
  - subst a. cbn in Ha. apply andb_true_iff in Hn'. destruct Hn' as (Hn' & _). congruence.
  - subst b. cbn in Hb. apply andb_true_iff in Hn. destruct Hn as (Hn & _). congruence.
  - injection E as -> E. apply andb_true_iff in Hn, Hn'. destruct (IH n' (proj2 Hn) (proj2 Hn') Ha Hb E) as (-> & ->). auto.
Qed.
Lemma debug_split (t t' a b : string) : debug_str t ++ a = debug_str t' ++ b -> t = t' /\ a = b.
Proof. unfold debug_str. rewrite !str_assoc. intro E. apply app_cancel in E. apply debug_chars_inj in E. exact E. Qed.

(** Two parts *)
Lemma forall2_sum {X Y X' Y'} (R : X -> X' -> Prop) (Q : Y -> Y' -> Prop) l m l' m' :
  Forall2 (fun z z' => match z, z' with inl x, inl x' => R x x' | inr y, inr y' => Q y y' | _, _ => False end)
    (map inl l ++ map inr m)%list (map inl l' ++ map inr m')%list -> Forall2 R l l' /\ Forall2 Q m m'.
Proof.
  revert l'. induction l as [|x l IH]; intros [|x' l'] H; cbn in H.
  - split; [constructor|]. revert m' H. induction m as [|y m IH]; intros [|y' m'] H; cbn in H; inversion H; subst; constructor; auto.
  - destruct m; inversion H; subst; contradiction.
  - destruct m'; inversion H; subst; contradiction.
  - inversion H; subst. destruct (IH l') as (H1 & H2); [assumption|]. split; [constructor; auto|exact H2].
Qed.
