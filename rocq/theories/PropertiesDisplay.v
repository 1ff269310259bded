(** * PropertiesDisplay: C81, the printed grammars, sets, automata and tables can be read back

    The texts of the [Display] implementations of src/grammar.rs, src/first.rs, src/lr1.rs, src/lr_common.rs and src/lr0.rs. *)
From Coq Require Import Ascii.
From Verif Require Import LowerProofs NamesProofs MessageProofs PropertiesMessage Termination Lookahead PropertiesGen Decide Findings PropertiesLr0 DisplayRange Grammars.
From Verif Require Export DisplayViews.
Local Open Scope string_scope.

Lemma forall2_map_eq {X X' Y} (f : X -> Y) (f' : X' -> Y) l l' : Forall2 (fun x x' => f x = f' x') l l' <-> map f l = map f' l'.
Proof.
  split.
  - induction 1; cbn; congruence.
  - revert l'. induction l as [|x l IH]; intros [|x' l'] H; try discriminate; constructor; cbn in H; injection H; auto.
Qed.
Lemma forall2_mono {X Y} (R Q : X -> Y -> Prop) l m : (forall x y, R x y -> Q x y) -> Forall2 R l m -> Forall2 Q l m.
Proof. intro H. induction 1; constructor; auto. Qed.
Lemma forall2_len {X Y} (R : X -> Y -> Prop) l m : Forall2 R l m -> List.length l = List.length m.
Proof. induction 1; cbn; congruence. Qed.
Lemma enumerate_snd {X X'} (R : nat * X -> nat * X' -> Prop) (Q : X -> X' -> Prop) l l' :
  (forall x x', R x x' -> Q (snd x) (snd x')) -> Forall2 R (enumerate l) (enumerate l') -> Forall2 Q l l'.
Proof.
  intro H. unfold enumerate. generalize 0. intro n. revert l' n. induction l as [|x l IH]; intros [|x' l'] n HF; cbn in HF; inversion HF; subst; constructor; eauto.
  apply (H (n, x) (n, x')). assumption.
Qed.
Lemma splits_weaken {X X'} f f' (R Q : X -> X' -> Prop) ok : splits f f' R ok -> (forall x x', R x x' -> Q x x') -> splits f f' Q ok.
Proof. intros H HR x x' s s' a b E E' Ha Hb Eq. destruct (H _ _ _ _ _ _ E E' Ha Hb Eq). auto. Qed.
Lemma get_t_of {A A'} (g : grammar A) (g' : grammar A') t t' : same_t g g' t t' -> get_terminal g t = get_terminal g' t'.
Proof. unfold same_t. cbn. destruct (get_terminal g t), (get_terminal g' t'); cbn; congruence. Qed.
Lemma get_nt_of {A A'} (g : grammar A) (g' : grammar A') n n' : same_nt g g' n n' ->
  option_map nt_name (get_non_terminal g n) = option_map nt_name (get_non_terminal g' n').
Proof. unfold same_nt. cbn. destruct (get_non_terminal g n), (get_non_terminal g' n'); cbn; congruence. Qed.

Lemma string_tail c c' a b : String c a = String c' b -> a = b.
Proof. intro H. injection H. auto. Qed.
Ltac norm E := unfold newline in E; repeat (progress (cbn [append] in E; repeat rewrite str_assoc in E));
  repeat match type of E with String ?c _ = String ?c _ => apply string_tail in E end.

Ltac split_by L E Ea Eb := let K := fresh "K" in pose proof L as K; unfold splits, splits_at in K; eapply K in E; clear K; [|exact Ea|exact Eb|reflexivity|reflexivity].

Section Two.
Context {A A' : Type}.
Variables (g : grammar A) (g' : grammar A') (ho ho' : hash_order).
Hypothesis Hg : identifiers g.
Hypothesis Hg' : identifiers g'.

Lemma production_splits : splits (show_production g) (show_production g') (fun p p' => rhs_named g p = rhs_named g' p') row_end.
Proof.
  intros p p' s s' a b H H' Ha Hb E. rewrite show_production_eq in H. rewrite show_production_eq in H'. destruct (row_splits g g' Hg Hg' _ _ _ _ _ _ H H' Ha Hb E) as (HF & Eab).
  split; [apply forall2_map_eq; exact HF|exact Eab].
Qed.

(** ** Grammars *)
Lemma production_lines : splits
  (fun y => let* s := show_production g (snd y) in Ok ("  " ++ decimal (fst y) ++ ": " ++ s ++ newline))
  (fun y => let* s := show_production g' (snd y) in Ok ("  " ++ decimal (fst y) ++ ": " ++ s ++ newline))
  (fun y y' => rhs_named g (snd y) = rhs_named g' (snd y')) any.
Proof.
  intros (i & p) (i' & p') s s' a b H H' _ _ E. cbn [fst snd] in *. inv_bind H. inv_bind H'. norm E.
  apply decimal_split in E; auto. destruct E as (_ & E). norm E. split_by production_splits E E0 E1. destruct E as (E & E'). norm E'. auto.
Qed.

Definition nt_lines {B} (h : grammar B) (x : nat * non_terminal B) : res string :=
  let* ps := prints (fun y => let* s := show_production h (snd y) in Ok ("  " ++ decimal (fst y) ++ ": " ++ s ++ newline))
                    (enumerate (nt_productions (snd x))) in
  Ok (decimal (fst x) ++ ": " ++ (if nt_public (snd x) then "pub" else "") ++ " " ++ nt_name (snd x) ++ " = {" ++ newline ++ ps ++ "}" ++ newline).
Lemma production_lines_start {B} (h : grammar B) (y : nat * production B) s a :
  (let* s := show_production h (snd y) in Ok ("  " ++ decimal (fst y) ++ ": " ++ s ++ newline)) = Ok s -> prefix " " (s ++ a) = true.
Proof. intro H. inv_bind H. reflexivity. Qed.
Lemma nt_splits_lines x x' : name_text (nt_name (snd x)) = true -> name_text (nt_name (snd x')) = true ->
  splits_at (nt_lines g) (nt_lines g') (fun x x' => nt_view g (snd x) = nt_view g' (snd x')) any x x'.
Proof.
  destruct x as (i & N), x' as (i' & N'). cbn [snd]. intros HN HN' s s' a b H H' _ _ E. unfold nt_lines in *. cbn [fst snd] in *. inv_bind H. inv_bind H'. norm E.
  apply decimal_split in E; auto. destruct E as (_ & E). norm E.
  assert (E2 : nt_public N = nt_public N' /\ nt_name N ++ " = {" ++ newline ++ s0 ++ "}" ++ newline ++ a = nt_name N' ++ " = {" ++ newline ++ s ++ "}" ++ newline ++ b).
  { unfold newline. cbn [append]. destruct (nt_public N), (nt_public N'); norm E; auto; discriminate. }
  clear E. destruct E2 as (Epub & E). apply name_split in E; auto. destruct E as (En & E). norm E.
  split_by (lines_splits _ _ _ (prefix " ") production_lines (production_lines_start g) (production_lines_start g')) E E0 E1.
  destruct E as (HF & E). norm E. split; [|exact E]. unfold nt_view. rewrite En, Epub. f_equal.
  apply forall2_map_eq. revert HF. apply enumerate_snd. intros x x' Hx. exact Hx.
Qed.
(** The text of a grammar tells the non-terminals, with their names and which of them are public, and the productions. *)
Theorem c81_grammar s : show_grammar g = Ok s -> show_grammar g' = Ok s -> map (nt_view g) (g_nts g) = map (nt_view g') (g_nts g').
Proof.
  intros H H'. apply forall2_map_eq.
  assert (HD : forall B (h : grammar B) x, identifiers h -> In x (enumerate (g_nts h)) -> name_text (nt_name (snd x)) = true).
  { intros B h (i & N) Hh Hx. apply enumerate_nth_error in Hx. eapply (Hh i N). exact Hx. }
  assert (Hst : forall B (h : grammar B) x t c, nt_lines h x = Ok t -> starts digit_char (t ++ c) = true).
  { intros B h x t c Ht. unfold nt_lines in Ht. inv_bind Ht. rewrite str_assoc. apply decimal_starts. }
  destruct (lines_splits_at (nt_lines g) (nt_lines g') _ (starts digit_char) (enumerate (g_nts g)) (enumerate (g_nts g'))
              (fun x x' Hx Hx' => nt_splits_lines x x' (HD _ g x Hg Hx) (HD _ g' x' Hg' Hx')) (Hst _ g) (Hst _ g') s s "" "" H H' eq_refl eq_refl eq_refl) as (HF & _).
  revert HF. apply enumerate_snd. auto.
Qed.

(** ** FIRST sets *)
Lemma show_first_set_eq {B} (h : grammar B) o fs : (forall l, Permutation (ho_terms o l) l) ->
  show_first_set o h fs = let* ts := sepd ", " (show_t h) (ho_terms o (fs_terminals fs)) in Ok ("{" ++ ts ++ "}" ++ if fs_empty fs then " (+ empty)" else "").
Proof.
  intro Ho. unfold show_first_set, enumerate. rewrite <- (sepd_eq ", " (show_t h) (List.length (fs_terminals fs)) _ 0); [reflexivity|].
  cbn. symmetry. apply Permutation_length. apply Ho.
Qed.
Definition set_line {B} (h : grammar B) (o : hash_order) (x : nat * first_set) : res string :=
  let* n := show_nt h (fst x) in let* s := show_first_set o h (snd x) in Ok ("    " ++ n ++ ": " ++ s ++ newline).
Lemma set_splits : hash_order_ok ho -> hash_order_ok ho' ->
  splits (set_line g ho) (set_line g' ho') (fun x x' => set_view g ho (snd x) = set_view g' ho' (snd x')) any.
Proof.
  intros Ho Ho' (i & fs) (i' & fs') s s' a b H H' _ _ E. unfold set_line in *. cbn [fst snd] in *. inv_bind H. inv_bind H'. norm E.
  rewrite show_first_set_eq in E1 by apply Ho. rewrite show_first_set_eq in E3 by apply Ho'. inv_bind E1. inv_bind E3.
  split_by (nt_splits g g' Hg Hg') E E0 E2. destruct E as (_ & E). norm E.
  assert (Hst : forall B (h : grammar B) x t c, show_t h x = Ok t -> prefix """" (t ++ c) = true).
  { intros B h x t c Ht. apply (show_t_starts _ _ _ c) in Ht. destruct Ht as (r & ->). destruct r; reflexivity. }
  split_by (sepd_splits ", " _ _ _ any (prefix """") (t_splits g g') (Hst _ g) (Hst _ g') (fun _ => eq_refl)) E E4 E1.
  destruct E as (HF & E). norm E. unfold set_view.
  assert (E6 : fs_empty fs = fs_empty fs' /\ a = b) by (destruct (fs_empty fs), (fs_empty fs'); norm E; auto; discriminate).
  destruct E6 as (-> & ->). split; [|reflexivity]. f_equal. apply forall2_map_eq. eapply forall2_mono; [|exact HF]. intros t t' Ht. apply get_t_of. exact Ht.
Qed.
Theorem c81_first tbl tbl' s : hash_order_ok ho -> hash_order_ok ho' -> show_first_table ho g tbl = Ok s -> show_first_table ho' g' tbl' = Ok s ->
  map (set_view g ho) tbl = map (set_view g' ho') tbl'.
Proof.
  intros Ho Ho' H H'. unfold show_first_table in *. fold (set_line g ho) in H. fold (set_line g' ho') in H'. inv_bind H. inv_bind H'.
  assert (Hst : forall B (h : grammar B) o x t c, set_line h o x = Ok t -> prefix " " (t ++ c) = true).
  { intros B h o x t c Ht. unfold set_line in Ht. inv_bind Ht. reflexivity. }
  injection H' as H'. norm H'. symmetry in H'.
  split_by (lines_splits _ _ _ (prefix " ") (set_splits Ho Ho') (Hst _ g ho) (Hst _ g' ho')) H' E E0. destruct H' as (HF & _).
  apply forall2_map_eq. revert HF. apply enumerate_snd. auto.
Qed.

(** ** Items and automata *)
Lemma item_splits it it' : cursor_ok g it -> cursor_ok g' it' -> splits_at (show_item g) (show_item g') (fun it it' => item_view g it = item_view g' it') any it it'.
Proof.
  intros Hc Hc' s s' a b H H' _ _ E. unfold show_item in *.
  destruct (get_non_terminal g (it_nt it)) as [N|] eqn:EN; [|discriminate]. destruct (get_non_terminal g' (it_nt it')) as [N'|] eqn:EN'; [|discriminate].
  cbn [at_index bind] in H, H'. destruct (nth_error (nt_productions N) (it_prod it)) as [pr|] eqn:Epr; [|discriminate].
  destruct (nth_error (nt_productions N') (it_prod it')) as [pr'|] eqn:Epr'; [|discriminate]. cbn [at_index bind] in H, H'. 
  destruct (show_cursor g (rhs pr) (it_cursor it)) as [body|?|] eqn:Eb; cbn [bind] in H; [|discriminate|discriminate].
  destruct (show_cursor g' (rhs pr') (it_cursor it')) as [body'|?|] eqn:Eb'; cbn [bind] in H'; [|discriminate|discriminate].
  rewrite show_cursor_eq in Eb. rewrite show_cursor_eq in Eb'.
  assert (Ep : get_production g (it_nt it) (it_prod it) = Some pr) by (unfold get_production; rewrite EN; exact Epr).
  assert (Ep' : get_production g' (it_nt it') (it_prod it') = Some pr') by (unfold get_production; rewrite EN'; exact Epr').
  destruct (match it_la it with Some t => show_t g t | None => Ok "$" end) as [la|?|] eqn:Ela; cbn [bind] in H; [|discriminate|discriminate].
  destruct (match it_la it' with Some t => show_t g' t | None => Ok "$" end) as [la'|?|] eqn:Ela'; cbn [bind] in H'; [|discriminate|discriminate].
  injection H as <-. injection H' as <-. norm E.
  apply name_split in E; [|exact (proj2 (Hg _ _ EN))|exact (proj2 (Hg' _ _ EN'))|reflexivity|reflexivity]. destruct E as (En & E). norm E.
  apply (cur_splits g g' Hg Hg' _ _ _ _ _ _ _ _ (Hc _ Ep : in_row (rhs pr) (Some (it_cursor it))) (Hc' _ Ep' : in_row (rhs pr') (Some (it_cursor it'))) Eb Eb') in E; [|reflexivity|reflexivity]. destruct E as (HF & Ek & E). norm E.
  assert (E2 : option_map (get_terminal g) (it_la it) = option_map (get_terminal g') (it_la it') /\ a = b).
  { destruct (it_la it) as [t|], (it_la it') as [t'|].
    - split_by (t_splits g g') E Ela Ela'. destruct E as (Ht & E). norm E. split; [cbn; f_equal; apply get_t_of; exact Ht|exact E].
    - exfalso. apply (show_t_starts _ _ _ (String "]" a)) in Ela. destruct Ela as (r & Er). rewrite Er in E. injection Ela' as <-. discriminate.
    - exfalso. apply (show_t_starts _ _ _ (String "]" b)) in Ela'. destruct Ela' as (r & Er). rewrite Er in E. injection Ela as <-. discriminate.
    - injection Ela as <-. injection Ela' as <-. norm E. auto. }
  destruct E2 as (Hla & ->). split; [|reflexivity]. unfold item_view. rewrite EN, EN', Ep, Ep', Hla. cbn. injection Ek as ->. rewrite En.
  apply forall2_map_eq in HF. unfold rhs_named. rewrite HF. reflexivity.
Qed.

(** The lines of a state: items, then transitions *)
Definition state_lines {B} (h : grammar B) (z : item + symbol * nat) : res string :=
  match z with
  | inl it => let* s := show_item h it in Ok ("  " ++ s ++ newline)
  | inr x => let* s := show_symbol h (fst x) in Ok ("  GOTO " ++ s ++ " -> " ++ decimal (snd x) ++ newline)
  end.
Lemma show_state_eq {B} o (h : grammar B) st : show_state o h st = prints (state_lines h) (map inl (st_items st) ++ map inr (ho_gotos o (st_goto st)))%list.
Proof. unfold show_state. rewrite prints_app, !prints_map. cbn [state_lines]. reflexivity. Qed.
Lemma state_lines_splits z z' : (forall it, z = inl it -> cursor_ok g it) -> (forall it, z' = inl it -> cursor_ok g' it) ->
  splits_at (state_lines g) (state_lines g')
    (fun z z' => match z, z' with inl it, inl it' => item_view g it = item_view g' it' | inr x, inr x' => goto_view g x = goto_view g' x' | _, _ => False end) any z z'.
Proof.
  intros Hc Hc' s s' a b H H' _ _ E.
  assert (Hit : forall B (h : grammar B) it t, show_item h it = Ok t -> exists r, t = String "[" r) by (intros B h it t Ht; unfold show_item in Ht; inv_bind Ht; eauto).
  destruct z as [it|(X & j)], z' as [it'|(X' & j')]; cbn [state_lines fst snd] in *; inv_bind H; inv_bind H'; norm E.
  - apply (item_splits it it' (Hc _ eq_refl) (Hc' _ eq_refl) _ _ _ _ E0 E1) in E; [|reflexivity|reflexivity]. destruct E as (Ev & E). norm E. auto.
  - exfalso. destruct (Hit _ _ _ _ E0) as (r & ->). discriminate.
  - exfalso. destruct (Hit _ _ _ _ E1) as (r & ->). discriminate.
  - split_by (symbol_splits g g' Hg Hg') E E0 E1. destruct E as (HX & E). norm E. apply decimal_split in E; auto. destruct E as (-> & E). norm E.
    split; [|exact E]. unfold goto_view. cbn. f_equal. exact HX.
Qed.
Definition state_block {B} o (h : grammar B) (x : nat * lr1_state) : res string :=
  let* s := show_state o h (snd x) in Ok (decimal (fst x) ++ ": {" ++ newline ++ s ++ "}" ++ newline).
Definition state_alike (st st' : lr1_state) : Prop := map (item_view g) (st_items st) = map (item_view g') (st_items st') /\
  map (goto_view g) (ho_gotos ho (st_goto st)) = map (goto_view g') (ho_gotos ho' (st_goto st')).
Lemma state_block_splits x x' : (forall it, In it (st_items (snd x)) -> cursor_ok g it) -> (forall it, In it (st_items (snd x')) -> cursor_ok g' it) ->
  splits_at (state_block ho g) (state_block ho' g') (fun x x' => state_alike (snd x) (snd x')) any x x'.
Proof.
  destruct x as (i & st), x' as (i' & st'). cbn [snd]. intros Hc Hc' s s' a b H H' _ _ E. unfold state_block in *. cbn [fst snd] in *. inv_bind H. inv_bind H'. norm E.
  apply decimal_split in E; auto. destruct E as (_ & E). norm E. rewrite show_state_eq in E0. rewrite show_state_eq in E1.
  assert (Hin : forall B (h : grammar B) o S z, (forall it, In it (st_items S) -> cursor_ok h it) -> In z (map inl (st_items S) ++ map inr (ho_gotos o (st_goto S)))%list ->
            forall it, z = inl it -> cursor_ok h it).
  { intros B h o S z HS Hz it ->. apply HS. apply in_app_iff in Hz. destruct Hz as [Hz|Hz]; apply in_map_iff in Hz; destruct Hz as (y & Ey & Hy); [congruence|discriminate]. }
  assert (Hst : forall B (h : grammar B) z t c, state_lines h z = Ok t -> prefix " " (t ++ c) = true).
  { intros B h [it|z] t c Ht; cbn in Ht; inv_bind Ht; reflexivity. }
  pose proof (lines_splits_at (state_lines g) (state_lines g') _ (prefix " ") _ _
    (fun z z' Hz Hz' => state_lines_splits z z' (Hin _ g ho st z Hc Hz) (Hin _ g' ho' st' z' Hc' Hz')) (Hst _ g) (Hst _ g')) as K.
  specialize (K _ _ _ _ E0 E1 (eq_refl : negb (prefix " " (String "}" _)) = true) (eq_refl : negb (prefix " " (String "}" _)) = true) E). destruct K as (HF & K). norm K.
  split; [|exact K]. apply forall2_sum in HF. destruct HF as (H1 & H2). split; apply forall2_map_eq; assumption.
Qed.
(** The text of an automaton tells the items and the transitions of every state. *)
Theorem c81_automaton states states' s : (forall st it, In st states -> In it (st_items st) -> cursor_ok g it) ->
  (forall st it, In st states' -> In it (st_items st) -> cursor_ok g' it) ->
  show_automaton ho g states = Ok s -> show_automaton ho' g' states' = Ok s -> Forall2 state_alike states states'.
Proof.
  intros Hc Hc' H H'.
  assert (Hst : forall B o (h : grammar B) x t c, state_block o h x = Ok t -> starts digit_char (t ++ c) = true).
  { intros B o h x t c Ht. unfold state_block in Ht. inv_bind Ht. rewrite str_assoc. apply decimal_starts. }
  assert (HD : forall B (h : grammar B) l x, (forall st it, In st l -> In it (st_items st) -> cursor_ok h it) -> In x (enumerate l) ->
             forall it, In it (st_items (snd x)) -> cursor_ok h it).
  { intros B h l (i & st) Hl Hx it. apply enumerate_nth_error in Hx. apply Hl. eapply nth_error_In; eauto. }
  destruct (lines_splits_at (state_block ho g) (state_block ho' g') _ (starts digit_char) (enumerate states) (enumerate states')
              (fun x x' Hx Hx' => state_block_splits x x' (HD _ g _ x Hc Hx) (HD _ g' _ x' Hc' Hx')) (Hst _ ho g) (Hst _ ho' g') s s "" "" H H' eq_refl eq_refl eq_refl) as (HF & _).
  revert HF. apply enumerate_snd. auto.
Qed.

(** ** Tables *)
Lemma action_splits : splits (show_action g) (show_action g') (fun x x' => action_view g x = action_view g' x') (fun a => negb (starts digit_char a)).
Proof.
  intros x x' s s' a b H H' Ha Hb E.
  destruct x as [i|nt p c|], x' as [i'|nt' p' c'|]; cbn [show_action] in H, H'; inv_bind H; inv_bind H'; norm E; try discriminate.
  - apply decimal_split in E; auto. destruct E as (-> & ->). auto.
  - split_by (nt_splits g g' Hg Hg') E E1 E4. destruct E as (Hnt & E). norm E. split_by production_splits E E2 E5. destruct E as (Hp & E). norm E.
    apply decimal_split in E; auto. destruct E as (-> & E). norm E. apply decimal_split in E; auto. destruct E as (-> & E). norm E.
    split; [|exact E]. cbn. f_equal. f_equal; [apply get_nt_of; exact Hnt|].
    destruct (get_production g nt' p') as [q|]; [|discriminate]. destruct (get_production g' nt' p') as [q'|]; [|discriminate].
    cbn in *. injection E0 as ->. injection E3 as ->. f_equal. exact Hp.
  - auto.
Qed.
Variable oa : list (option nat * lr_action A) -> list (option nat * lr_action A).
Variable oa' : list (option nat * lr_action A') -> list (option nat * lr_action A').
Variables og og' : list (nat * nat) -> list (nat * nat).
Definition row_lines {B} (h : grammar B) (z : (option nat * lr_action B) + nat * nat) : res string :=
  match z with
  | inl x => let* la := match fst x with Some t => show_t h t | None => Ok "EOF" end in let* a := show_action h (snd x) in Ok ("  " ++ la ++ " -> " ++ a ++ newline)
  | inr x => let* n := show_nt h (fst x) in Ok ("  " ++ n ++ " -> " ++ decimal (snd x) ++ newline)
  end.
Lemma row_lines_splits : splits (row_lines g) (row_lines g')
    (fun z z' => match z, z' with inl x, inl x' => entry_view g x = entry_view g' x' | inr x, inr x' => row_view g x = row_view g' x' | _, _ => False end) any.
Proof.
  assert (Hna : forall B (h : grammar B) nt la n x j c d, show_nt h nt = Ok n -> identifiers h -> la = "EOF" \/ (exists r, la = String """" r) ->
            (exists r, x = String "S" r \/ x = String "R" r \/ x = String "A" r) -> la ++ " -> " ++ x ++ c = n ++ " -> " ++ decimal j ++ d -> False).
  { intros B h nt la n x j c d Hn Hh Hla (r & Hx) E. pose proof (show_nt_starts h nt n (" -> " ++ decimal j ++ d) Hh Hn) as K. destruct Hla as [-> | (q & ->)].
    - apply show_nt_inv in Hn. destruct Hn as (N & HN & ->). change ("EOF" ++ " -> " ++ x ++ c = nt_name N ++ " -> " ++ decimal j ++ d) in E.
      apply name_split in E; [|reflexivity|exact (proj2 (Hh _ _ HN))|reflexivity|reflexivity]. destruct E as (_ & E). norm E. pose proof (decimal_starts j d) as Kd. rewrite <- E in Kd.
      destruct Hx as [-> | [-> | ->]]; discriminate.
    - rewrite <- E in K. discriminate. }
  assert (Hact : forall B (h : grammar B) x t, show_action h x = Ok t -> exists r, t = String "S" r \/ t = String "R" r \/ t = String "A" r).
  { intros B h [i|nt p c|] t Ht; cbn [show_action] in Ht; inv_bind Ht; cbn [append]; eauto. }
  assert (Hla : forall B (h : grammar B) o t, match o with Some t => show_t h t | None => Ok "EOF" end = Ok t -> t = "EOF" \/ exists r, t = String """" r).
  { intros B h [t|] u Hu; [|injection Hu as <-; auto]. apply (show_t_starts _ _ _ "") in Hu. destruct Hu as (r & Hr). rewrite str_app_nil in Hr. eauto. }
  intros [(la & x)|(n & j)] [(la' & x')|(n' & j')] s s' a b H H' _ _ E; cbn [row_lines fst snd] in *; inv_bind H; inv_bind H'; norm E.
  - assert (E4 : option_map (get_terminal g) la = option_map (get_terminal g') la' /\ s1 ++ newline ++ a = s2 ++ newline ++ b).
    { destruct la as [t|], la' as [t'|].
      - split_by (t_splits g g') E E0 E2. destruct E as (Ht & E). norm E. split; [cbn; f_equal; apply get_t_of; exact Ht|exact E].
      - exfalso. injection E2 as <-. apply (show_t_starts _ _ _ (String " " (String "-" (String ">" (String " " (s1 ++ String (ascii_of_nat 10) a)))))) in E0. destruct E0 as (r & Er).
        rewrite Er in E. discriminate.
      - exfalso. injection E0 as <-. apply (show_t_starts _ _ _ (String " " (String "-" (String ">" (String " " (s2 ++ String (ascii_of_nat 10) b)))))) in E2. destruct E2 as (r & Er).
        rewrite Er in E. discriminate.
      - injection E0 as <-. injection E2 as <-. norm E. auto. }
    destruct E4 as (El & E4). clear E. norm E4. split_by action_splits E4 E1 E3. destruct E4 as (Ex & E4). norm E4. split; [|exact E4]. unfold entry_view. cbn. congruence.
  - exfalso. eapply (Hna _ g' n'); [exact E2|exact Hg'|eapply Hla; exact E0|eapply Hact; exact E1|exact E].
  - exfalso. symmetry in E. eapply (Hna _ g n); [exact E0|exact Hg|eapply Hla; exact E1|eapply Hact; exact E2|exact E].
  - split_by (nt_splits g g' Hg Hg') E E0 E1. destruct E as (Hn & E). norm E. apply decimal_split in E; auto. destruct E as (-> & E). norm E.
    split; [|exact E]. unfold row_view. cbn. f_equal. apply get_nt_of. exact Hn.
Qed.

Definition table_row {B} (h : grammar B) (o : list (option nat * lr_action B) -> list (option nat * lr_action B)) (p : list (nat * nat) -> list (nat * nat))
  (tb : lr_table B) (s : nat) : list ((option nat * lr_action B) + nat * nat) := (map inl (o (actions_of tb s)) ++ map inr (p (gotos_of tb s)))%list.
Definition row_block {B} (h : grammar B) o p (tb : lr_table B) (s : nat) : res string :=
  let* t := prints (row_lines h) (table_row h o p tb s) in Ok (decimal s ++ ": {" ++ newline ++ t ++ "}" ++ newline).
Lemma show_table_eq {B} (h : grammar B) o p tb : show_table h o p tb = prints (row_block h o p tb) (seq 0 (tb_n_states tb)).
Proof.
  unfold show_table. apply prints_ext. intros s _. unfold row_block, table_row. rewrite prints_app, !prints_map. cbn [row_lines].
  destruct (prints _ (o (actions_of tb s))) as [a|q|]; cbn [bind]; auto. destruct (prints _ (p (gotos_of tb s))) as [b|q|]; cbn [bind]; auto.
  rewrite str_assoc. reflexivity.
Qed.
Definition row_alike (tb : lr_table A) (tb' : lr_table A') (s : nat) : Prop :=
  map (entry_view g) (oa (actions_of tb s)) = map (entry_view g') (oa' (actions_of tb' s)) /\
  map (row_view g) (og (gotos_of tb s)) = map (row_view g') (og' (gotos_of tb' s)).
Lemma row_block_splits tb tb' : splits (row_block g oa og tb) (row_block g' oa' og' tb') (fun s s' => s = s' /\ row_alike tb tb' s) any.
Proof.
  intros i i' s s' a b H H' _ _ E. unfold row_block in *. inv_bind H. inv_bind H'. norm E. apply decimal_split in E; auto. destruct E as (-> & E). norm E.
  assert (Hst : forall B (h : grammar B) z t c, row_lines h z = Ok t -> prefix " " (t ++ c) = true).
  { intros B h [it|z] t c Ht; cbn in Ht; inv_bind Ht; reflexivity. }
  split_by (lines_splits _ _ _ (prefix " ") row_lines_splits (Hst _ g) (Hst _ g')) E E0 E1. destruct E as (HF & E). norm E.
  split; [split; [reflexivity|]|exact E]. apply forall2_sum in HF. destruct HF as (H1 & H2). split; apply forall2_map_eq; assumption.
Qed.
(** The text of a table tells the number of states, and the actions and gotos of each. *)
Theorem c81_table tb tb' s : show_table g oa og tb = Ok s -> show_table g' oa' og' tb' = Ok s ->
  tb_n_states tb = tb_n_states tb' /\ forall i, i < tb_n_states tb -> row_alike tb tb' i.
Proof.
  intros H H'. rewrite show_table_eq in H. rewrite show_table_eq in H'.
  assert (Hst : forall B (h : grammar B) o p tb x t c, row_block h o p tb x = Ok t -> starts digit_char (t ++ c) = true).
  { intros B h o p tb0 x t c Ht. unfold row_block in Ht. inv_bind Ht. rewrite str_assoc. apply decimal_starts. }
  destruct (lines_splits _ _ _ (starts digit_char) (row_block_splits tb tb') (Hst _ g oa og tb) (Hst _ g' oa' og' tb') _ _ s s "" "" H H' eq_refl eq_refl eq_refl) as (HF & _).
  split; [apply forall2_len in HF; rewrite !seq_length in HF; exact HF|]. intros i Hi.
  assert (K : forall l l', Forall2 (fun s s' => s = s' /\ row_alike tb tb' s) l l' -> forall i, In i l -> row_alike tb tb' i).
  { induction 1 as [|x x' l l' (_ & Hx) _ IH]; intros j Hj; [contradiction|]. destruct Hj as [->|Hj]; auto. }
  apply (K _ _ HF). apply in_seq. lia.
Qed.

(** The same, row by row: the same actions and gotos, by the names of symbols, whatever the orders in which the maps are listed. *)
Theorem c81_table_entries tb tb' s : (forall l, Permutation (oa l) l) -> (forall l, Permutation (oa' l) l) ->
  (forall l, Permutation (og l) l) -> (forall l, Permutation (og' l) l) ->
  show_table g oa og tb = Ok s -> show_table g' oa' og' tb' = Ok s ->
  tb_n_states tb = tb_n_states tb' /\ forall i, i < tb_n_states tb ->
    (forall v, (exists la x, In ((i, la), x) (tb_action tb) /\ v = entry_view g (la, x)) <-> (exists la x, In ((i, la), x) (tb_action tb') /\ v = entry_view g' (la, x))) /\
    (forall v, (exists n j, In ((i, n), j) (tb_goto tb) /\ v = row_view g (n, j)) <-> (exists n j, In ((i, n), j) (tb_goto tb') /\ v = row_view g' (n, j))).
Proof.
  intros Ha Ha' Hp Hp' H H'. destruct (c81_table tb tb' s H H') as (Hn & Hr). split; [exact Hn|]. intros i Hi. destruct (Hr i Hi) as (R1 & R2).
  assert (KA : forall B (h : grammar B) o (t : lr_table B) v, (forall l, Permutation (o l) l) ->
            (In v (map (entry_view h) (o (actions_of t i))) <-> exists la x, In ((i, la), x) (tb_action t) /\ v = entry_view h (la, x))).
  { intros B h o t v Ho. rewrite in_map_iff. split.
    - intros ((la & x) & <- & Hx). apply (Permutation_in _ (Ho _)) in Hx. apply in_map_iff in Hx. destruct Hx as (((k & la') & x') & E & Hx).
      cbn in E. injection E as -> ->. apply filter_In in Hx. destruct Hx as (Hx & Ek). cbn in Ek. apply Nat.eqb_eq in Ek. subst k. eauto.
    - intros (la & x & Hx & ->). exists (la, x). split; [reflexivity|]. apply (Permutation_in _ (Permutation_sym (Ho _))). apply in_map_iff.
      exists ((i, la), x). split; [reflexivity|]. apply filter_In. split; [exact Hx|]. cbn. apply Nat.eqb_refl. }
  assert (KG : forall B (h : grammar B) o (t : lr_table B) v, (forall l, Permutation (o l) l) ->
            (In v (map (row_view h) (o (gotos_of t i))) <-> exists n j, In ((i, n), j) (tb_goto t) /\ v = row_view h (n, j))).
  { intros B h o t v Ho. rewrite in_map_iff. split.
    - intros ((n & j) & <- & Hx). apply (Permutation_in _ (Ho _)) in Hx. apply in_map_iff in Hx. destruct Hx as (((k & n') & j') & E & Hx).
      cbn in E. injection E as -> ->. apply filter_In in Hx. destruct Hx as (Hx & Ek). cbn in Ek. apply Nat.eqb_eq in Ek. subst k. eauto.
    - intros (n & j & Hx & ->). exists (n, j). split; [reflexivity|]. apply (Permutation_in _ (Permutation_sym (Ho _))). apply in_map_iff.
      exists ((i, n), j). split; [reflexivity|]. apply filter_In. split; [exact Hx|]. cbn. apply Nat.eqb_refl. }
  split; intro v.
  - rewrite <- (KA _ g oa tb v Ha), <- (KA _ g' oa' tb' v Ha'), R1. reflexivity.
  - rewrite <- (KG _ g og tb v Hp), <- (KG _ g' og' tb' v Hp'), R2. reflexivity.
Qed.

(** ** LR(0) automata *)
Definition lr0_lines {B} (h : grammar B) (z : item + symbol * nat) : res string :=
  match z with
  | inl it => let* s := show_lr0_item h it in Ok ("  " ++ s ++ newline)
  | inr x => let* s := show_symbol h (fst x) in Ok ("  " ++ s ++ " -> " ++ decimal (snd x) ++ newline)
  end.
Definition lr0_view {B} (h : grammar B) (it : item) :=
  (option_map nt_name (get_non_terminal h (it_nt it)), option_map (rhs_named h) (get_production h (it_nt it) (it_prod it)), it_cursor it).
Lemma lr0_item_splits it it' : cursor_ok g it -> cursor_ok g' it' -> splits_at (show_lr0_item g) (show_lr0_item g') (fun it it' => lr0_view g it = lr0_view g' it') any it it'.
Proof.
  intros Hc Hc' s s' a b H H' _ _ E. unfold show_lr0_item in *.
  destruct (show_nt g (it_nt it)) as [n|?|] eqn:En; cbn [bind] in H; [|discriminate|discriminate].
  destruct (show_nt g' (it_nt it')) as [n'|?|] eqn:En'; cbn [bind] in H'; [|discriminate|discriminate].
  destruct (get_production g (it_nt it) (it_prod it)) as [pr|] eqn:Ep; cbn [at_index bind] in H; [|discriminate].
  destruct (get_production g' (it_nt it') (it_prod it')) as [pr'|] eqn:Ep'; cbn [at_index bind] in H'; [|discriminate].
  destruct (show_cursor g (rhs pr) (it_cursor it)) as [body|?|] eqn:Eb; cbn [bind] in H; [|discriminate|discriminate].
  destruct (show_cursor g' (rhs pr') (it_cursor it')) as [body'|?|] eqn:Eb'; cbn [bind] in H'; [|discriminate|discriminate].
  rewrite show_cursor_eq in Eb. rewrite show_cursor_eq in Eb'. injection H as <-. injection H' as <-. norm E.
  split_by (nt_splits g g' Hg Hg') E En En'. destruct E as (Hn & E). norm E.
  apply (cur_splits g g' Hg Hg' _ _ _ _ _ _ _ _ (Hc _ Ep : in_row (rhs pr) (Some (it_cursor it))) (Hc' _ Ep' : in_row (rhs pr') (Some (it_cursor it'))) Eb Eb') in E; [|reflexivity|reflexivity].
  destruct E as (HF & Ek & E). norm E. split; [|exact E]. unfold lr0_view. rewrite Ep, Ep'. injection Ek as ->. rewrite (get_nt_of _ _ _ _ Hn). cbn.
  apply forall2_map_eq in HF. unfold rhs_named. rewrite HF. reflexivity.
Qed.
Lemma lr0_lines_splits z z' : (forall it, z = inl it -> cursor_ok g it) -> (forall it, z' = inl it -> cursor_ok g' it) ->
  splits_at (lr0_lines g) (lr0_lines g')
    (fun z z' => match z, z' with inl it, inl it' => lr0_view g it = lr0_view g' it' | inr x, inr x' => goto_view g x = goto_view g' x' | _, _ => False end) any z z'.
Proof.
  intros Hc Hc' s s' a b H H' _ _ E.
  assert (Hit : forall B (h : grammar B) it t, show_lr0_item h it = Ok t -> exists r, t = String "[" r) by (intros B h it t Ht; unfold show_lr0_item in Ht; inv_bind Ht; eauto).
  destruct z as [it|(X & j)], z' as [it'|(X' & j')]; cbn [lr0_lines fst snd] in *; inv_bind H; inv_bind H'; norm E.
  - apply (lr0_item_splits it it' (Hc _ eq_refl) (Hc' _ eq_refl) _ _ _ _ E0 E1) in E; [|reflexivity|reflexivity]. destruct E as (Ev & E). norm E. auto.
  - exfalso. destruct (Hit _ _ _ _ E0) as (r & ->). apply (show_symbol_starts _ _ _ (" -> " ++ decimal j' ++ newline ++ b) Hg') in E1. unfold newline in E1. cbn [append] in *. rewrite <- E in E1. discriminate.
  - exfalso. destruct (Hit _ _ _ _ E1) as (r & ->). apply (show_symbol_starts _ _ _ (" -> " ++ decimal j ++ newline ++ a) Hg) in E0. unfold newline in E0. cbn [append] in *. rewrite E in E0. discriminate.
  - split_by (symbol_splits g g' Hg Hg') E E0 E1. destruct E as (HX & E). norm E. apply decimal_split in E; auto. destruct E as (-> & E). norm E.
    split; [|exact E]. unfold goto_view. cbn. f_equal. exact HX.
Qed.
Definition lr0_block {B} o (h : grammar B) (x : nat * lr1_state) : res string :=
  let* s := prints (lr0_lines h) (map inl (st_items (snd x)) ++ map inr (ho_gotos o (st_goto (snd x))))%list in Ok (decimal (fst x) ++ ": {" ++ newline ++ s ++ "}" ++ newline).
Lemma show_lr0_eq {B} o (h : grammar B) states : show_lr0_automaton o h states = prints (lr0_block o h) (enumerate states).
Proof.
  unfold show_lr0_automaton. apply prints_ext. intros x _. unfold lr0_block. rewrite prints_app, !prints_map. cbn [lr0_lines].
  destruct (prints _ (st_items (snd x))) as [a|q|]; cbn [bind]; auto. destruct (prints _ (ho_gotos o (st_goto (snd x)))) as [b|q|]; cbn [bind]; auto.
  rewrite str_assoc. reflexivity.
Qed.
Definition lr0_alike (st st' : lr1_state) : Prop := map (lr0_view g) (st_items st) = map (lr0_view g') (st_items st') /\
  map (goto_view g) (ho_gotos ho (st_goto st)) = map (goto_view g') (ho_gotos ho' (st_goto st')).
Lemma lr0_block_splits x x' : (forall it, In it (st_items (snd x)) -> cursor_ok g it) -> (forall it, In it (st_items (snd x')) -> cursor_ok g' it) ->
  splits_at (lr0_block ho g) (lr0_block ho' g') (fun x x' => lr0_alike (snd x) (snd x')) any x x'.
Proof.
  destruct x as (i & st), x' as (i' & st'). cbn [snd]. intros Hc Hc' s s' a b H H' _ _ E. unfold lr0_block in *. cbn [fst snd] in *. inv_bind H. inv_bind H'. norm E.
  apply decimal_split in E; auto. destruct E as (_ & E). norm E.
  assert (Hin : forall B (h : grammar B) o S z, (forall it, In it (st_items S) -> cursor_ok h it) -> In z (map inl (st_items S) ++ map inr (ho_gotos o (st_goto S)))%list ->
            forall it, z = inl it -> cursor_ok h it).
  { intros B h o S z HS Hz it ->. apply HS. apply in_app_iff in Hz. destruct Hz as [Hz|Hz]; apply in_map_iff in Hz; destruct Hz as (y & Ey & Hy); [congruence|discriminate]. }
  assert (Hst : forall B (h : grammar B) z t c, lr0_lines h z = Ok t -> prefix " " (t ++ c) = true).
  { intros B h [it|z] t c Ht; cbn in Ht; inv_bind Ht; reflexivity. }
  pose proof (lines_splits_at (lr0_lines g) (lr0_lines g') _ (prefix " ") _ _
    (fun z z' Hz Hz' => lr0_lines_splits z z' (Hin _ g ho st z Hc Hz) (Hin _ g' ho' st' z' Hc' Hz')) (Hst _ g) (Hst _ g')) as K.
  specialize (K _ _ _ _ E0 E1 (eq_refl : negb (prefix " " (String "}" _)) = true) (eq_refl : negb (prefix " " (String "}" _)) = true) E). destruct K as (HF & K). norm K.
  split; [|exact K]. apply forall2_sum in HF. destruct HF as (H1 & H2). split; apply forall2_map_eq; assumption.
Qed.
Theorem c81_lr0 states states' s : (forall st it, In st states -> In it (st_items st) -> cursor_ok g it) ->
  (forall st it, In st states' -> In it (st_items st) -> cursor_ok g' it) ->
  show_lr0_automaton ho g states = Ok s -> show_lr0_automaton ho' g' states' = Ok s -> Forall2 lr0_alike states states'.
Proof.
  intros Hc Hc' H H'. rewrite show_lr0_eq in H. rewrite show_lr0_eq in H'.
  assert (Hst : forall B o (h : grammar B) x t c, lr0_block o h x = Ok t -> starts digit_char (t ++ c) = true).
  { intros B o h x t c Ht. unfold lr0_block in Ht. inv_bind Ht. rewrite str_assoc. apply decimal_starts. }
  assert (HD : forall B (h : grammar B) l x, (forall st it, In st l -> In it (st_items st) -> cursor_ok h it) -> In x (enumerate l) ->
             forall it, In it (st_items (snd x)) -> cursor_ok h it).
  { intros B h l (i & st) Hl Hx it. apply enumerate_nth_error in Hx. apply Hl. eapply nth_error_In; eauto. }
  destruct (lines_splits_at (lr0_block ho g) (lr0_block ho' g') _ (starts digit_char) (enumerate states) (enumerate states')
              (fun x x' Hx Hx' => lr0_block_splits x x' (HD _ g _ x Hc Hx) (HD _ g' _ x' Hc' Hx')) (Hst _ ho g) (Hst _ ho' g') s s "" "" H H' eq_refl eq_refl eq_refl) as (HF & _).
  revert HF. apply enumerate_snd. auto.
Qed.
End Two.

(** ** Grammars of users *)
Lemma name_text_app a b : name_text (a ++ b) = (name_text a && name_text b)%bool.
Proof. induction a as [|c a IH]; cbn; [reflexivity|]. rewrite IH. apply andb_assoc. Qed.
Lemma skeleton_names {A} (nts : list (ast_non_terminal A)) : forall k N, In N (skeleton k nts) -> exists M, In M nts /\ (nt_name N = an_name M \/ nt_name N = an_name M ++ "1").
Proof.
  unfold skeleton. induction nts as [|M nts IH]; intros k N H; cbn in H; [contradiction|]. apply in_app_iff in H. destruct H as [H|H].
  - exists M. split; [left; reflexivity|]. unfold block in H. destruct (an_pub M); cbn in H; [destruct H as [<-|[<-|[]]]|destruct H as [<-|[]]]; cbn; auto.
  - destruct (IH _ _ H) as (M' & HM & HN). exists M'. split; [right; exact HM|exact HN].
Qed.
Section User.
Context {A : Type}.
Variable items : list (grammar_item A).
Variable g : grammar (lexpr A).
Hypothesis Hl : lower (declared_nts items) (token_entries items) = Ok g.
(** Names of non-terminals are identifiers. *)
Definition plain_names : Prop := forall N, In N (declared_nts items) -> an_name N <> "" /\ name_text (an_name N) = true.
Lemma plain_identifiers : plain_names -> identifiers g.
Proof.
  intros Hn n N HN. pose proof (lower_spec (declared_nts items) (token_entries items)) as Hs. rewrite Hl in Hs. destruct Hs as (ti & Hlow).
  unfold get_non_terminal in HN. rewrite (lo_nts _ _ _ _ Hlow) in HN. destruct (nth_error (skeleton 0 (declared_nts items)) n) as [M|] eqn:EM; [|discriminate]. injection HN as <-.
  cbn. apply nth_error_In in EM. destruct (skeleton_names _ _ _ EM) as (D & HD & [->| ->]); destruct (Hn D HD) as (H1 & H2); [auto|]. split.
  - destruct (an_name D); discriminate.
  - rewrite name_text_app, H2. reflexivity.
Qed.
Lemma user_wf : wf_grammar g.
Proof. pose proof (lower_spec (declared_nts items) (token_entries items)) as Hs. rewrite Hl in Hs. destruct Hs as (ti & Hlow). eapply lowered_wf; eauto. Qed.

(** Printing what the macro computes does not panic. *)
Theorem c81_no_panic ho fuel : hash_order_ok ho ->
  (exists s, show_grammar g = Ok s) /\
  (forall tbl, generate_first_table ho fuel g = Ok tbl -> (exists s, show_first_table ho g tbl = Ok s) /\
     forall states entries, generate_lr1_automaton ho fuel g tbl = Ok (states, entries) -> (exists s, show_automaton ho g states = Ok s) /\
     forall tb oa og, build_lr1_table ho g states = Ok tb -> (forall l, Permutation (oa l) l) -> (forall l, Permutation (og l) l) -> exists s, show_table g oa og tb = Ok s) /\
  (forall hs states, (forall l, Permutation (hs l) l) -> compute_lr0_automaton ho hs fuel g = Ok states -> exists s, show_lr0_automaton ho g states = Ok s).
Proof.
  intro Hho. pose proof user_wf as Hwf. split; [apply show_grammar_ok; exact Hwf|]. split.
  - intros tbl Ht. split; [eapply show_first_ok; eauto|]. intros states entries Ha. split; [eapply show_automaton_ok; eauto|].
    intros tb oa og Hb Hoa Hog. eapply show_table_ok; eauto.
  - intros hs states Hhs Hc. eapply show_lr0_ok; eauto.
Qed.

(** From the text of an automaton of the macro the states can be read: if a grammar's automaton, however computed, and some other one print the
    same, then they have the same items and transitions, up to the names of symbols. *)
Lemma automaton_cursors ho fuel tbl states entries : hash_order_ok ho -> generate_first_table ho fuel g = Ok tbl -> generate_lr1_automaton ho fuel g tbl = Ok (states, entries) ->
  forall st it, In st states -> In it (st_items st) -> cursor_ok g it.
Proof.
  intros Hho Ht Ha st it Hst Hit pr Hp. destruct (states_items g user_wf ho Hho fuel tbl states entries Ht Ha st it Hst Hit) as (pr' & Hp' & Hc & _). congruence.
Qed.
End User.

(** In a grammar where names are not used twice, views tell the symbols. *)
Definition unique_names {A} (g : grammar A) : Prop := NoDup (map nt_name (g_nts g)) /\ NoDup (g_terminals g).
Lemma named_unique {A} (g : grammar A) X Y : unique_names g -> named g X <> None -> named g X = named g Y -> X = Y.
Proof.
  intros (H1 & H2) Hne E. destruct X as [n|t], Y as [m|u]; cbn in *.
  - destruct (get_non_terminal g n) as [N|] eqn:EN; [|contradiction]. destruct (get_non_terminal g m) as [M|] eqn:EM; [|discriminate]. cbn in E. injection E as E.
    f_equal. rewrite NoDup_nth_error in H1. apply H1.
    + rewrite map_length. apply nth_error_Some. unfold get_non_terminal in EN. congruence.
    + unfold get_non_terminal in *. rewrite !nth_error_map, EN, EM. cbn. congruence.
  - destruct (get_non_terminal g n), (get_terminal g u); cbn in *; congruence.
  - destruct (get_terminal g t), (get_non_terminal g m); cbn in *; congruence.
  - destruct (get_terminal g t) as [x|] eqn:Et; [|contradiction]. destruct (get_terminal g u) as [y|] eqn:Eu; [|discriminate]. cbn in E. injection E as E.
    f_equal. rewrite NoDup_nth_error in H2. unfold get_terminal in *. apply H2; [apply nth_error_Some|]; congruence.
Qed.
(** Then the line of an item tells its non-terminal, its right-hand side, the cursor and the lookahead. *)
Theorem c81_item {A} (g : grammar A) it it' s : identifiers g -> unique_names g -> cursor_ok g it -> cursor_ok g it' -> show_item g it = Ok s -> show_item g it' = Ok s ->
  it_nt it = it_nt it' /\ it_cursor it = it_cursor it' /\ it_la it = it_la it' /\
  exists pr pr', get_production g (it_nt it) (it_prod it) = Some pr /\ get_production g (it_nt it') (it_prod it') = Some pr' /\ rhs pr = rhs pr'.
Proof.
  intros Hg Hu Hc Hc' H H'. destruct (item_splits g g Hg Hg it it' Hc Hc' s s "" "" H H' eq_refl eq_refl eq_refl) as (E & _). unfold item_view in E.
  assert (Hdone : forall i, show_item g i = Ok s -> exists N pr, get_non_terminal g (it_nt i) = Some N /\ get_production g (it_nt i) (it_prod i) = Some pr /\
            (forall X, In X (rhs pr) -> named g X <> None) /\ (forall t, it_la i = Some t -> get_terminal g t <> None)).
  { intros i Hi. unfold show_item in Hi. destruct (get_non_terminal g (it_nt i)) as [N|] eqn:EN; [|discriminate]. cbn [at_index bind] in Hi.
    destruct (nth_error (nt_productions N) (it_prod i)) as [pr|] eqn:Ep; [|discriminate]. cbn [at_index bind] in Hi. exists N, pr. split; [reflexivity|].
    split; [unfold get_production; rewrite EN; exact Ep|]. rewrite show_cursor_eq in Hi. destruct (cur g (rhs pr) (Some (it_cursor i))) as [body|?|] eqn:Eb; cbn [bind] in Hi; [|discriminate|discriminate].
    split.
    - clear - Eb. revert Eb. generalize (Some (it_cursor i)). generalize body. induction (rhs pr) as [|Y l IH]; intros b k Eb X HX; [contradiction|]. cbn [cur] in Eb. inv_bind Eb.
      destruct HX as [->|HX]; [apply named_some in E; destruct E as (x & ->); discriminate|eapply IH; eauto].
    - intros t Ht. rewrite Ht in Hi. destruct (show_t g t) as [x|?|] eqn:Ex; cbn [bind] in Hi; [|discriminate|discriminate]. apply show_t_inv in Ex. destruct Ex as (y & -> & _). discriminate. }
  destruct (Hdone it H) as (N & pr & EN & Ep & HX & Hla). destruct (Hdone it' H') as (N' & pr' & EN' & Ep' & _ & _). rewrite EN, EN', Ep, Ep' in E. cbn in E.
  injection E as En Er Ek El. split; [|split; [exact Ek|split]].
  - assert (Es : NT (it_nt it) = NT (it_nt it')); [|injection Es; auto]. apply (named_unique g); auto; cbn; rewrite EN; [discriminate|]. rewrite EN'. cbn. congruence.
  - destruct (it_la it) as [t|] eqn:Et, (it_la it') as [t'|] eqn:Et'; try discriminate; [|reflexivity]. cbn in El. injection El as El. f_equal.
    assert (Es : T t = T t'); [|injection Es; auto]. specialize (Hla t eq_refl). apply (named_unique g); auto; cbn; [destruct (get_terminal g t); [discriminate|contradiction]|congruence].
  - exists pr, pr'. split; [exact Ep|split; [exact Ep'|]]. unfold rhs_named in Er. revert HX Er. generalize (rhs pr'). induction (rhs pr) as [|X l IH]; intros [|Y m] HX Er; try discriminate; [reflexivity|].
    cbn in Er. injection Er as E1 E2. f_equal; [apply (named_unique g); auto; apply HX; left; reflexivity|apply IH; auto; intros; apply HX; right; assumption].
Qed.

(** ** Findings and cases *)
(** An entry point [A] is lowered to two non-terminals, [A1] and [A].  A user's own [A1] has the name of the first of them, so that the text of the
    lowered grammar does not tell in which of the two a production goes on. *)
Definition twice_a : list (grammar_item string) :=
  [ tokens [unit_tok "x" "Token::X"; unit_tok "y" "Token::Y"]; rule true "A" "()" [([$"x"; #"A"], "()"); ([$"y"], "()")]; rule false "A1" "()" [([$"x"], "()")] ].
Definition twice_b : list (grammar_item string) :=
  [ tokens [unit_tok "x" "Token::X"; unit_tok "y" "Token::Y"]; rule true "A" "()" [([$"x"; #"A1"], "()"); ([$"y"], "()")]; rule false "A1" "()" [([$"x"], "()")] ].
Definition lowered_of (items : list (grammar_item string)) : grammar (lexpr string) :=
  match lower (declared_nts items) (token_entries items) with Ok g => g | _ => grammar_new end.
Theorem c81_names_refuted : exists items items' : list (grammar_item string), distinct_names items /\ distinct_names items' /\ plain_names items /\ plain_names items' /\
  exists g g' s, lower (declared_nts items) (token_entries items) = Ok g /\ lower (declared_nts items') (token_entries items') = Ok g' /\
    show_grammar g = Ok s /\ show_grammar g' = Ok s /\ derives g [NT 1] [T 0; T 1] /\ ~ derives g' [NT 1] [T 0; T 1].
Proof.
  exists twice_a, twice_b.
  assert (Hp : forall l, declared_nts l = declared_nts twice_a \/ declared_nts l = declared_nts twice_b -> plain_names l).
  { intros l [E|E] N HN; rewrite E in HN; cbn in HN; repeat (destruct HN as [<-|HN]; [split; [discriminate|reflexivity]|]); contradiction. }
  split; [prove_distinct|split; [prove_distinct|split; [apply Hp; auto|split; [apply Hp; auto|]]]].
  exists (lowered_of twice_a), (lowered_of twice_b). eexists. split; [vm_compute; reflexivity|split; [vm_compute; reflexivity|split; [vm_compute; reflexivity|split; [vm_compute; reflexivity|split]]]].
  - eapply derives_step; [eapply (dstep_intro (lowered_of twice_a) [] 1 0 _ []); reflexivity|]. cbn. eapply derives_step; [eapply (dstep_intro (lowered_of twice_a) [] 0 0 _ []); reflexivity|]. cbn.
    eapply derives_step; [eapply (dstep_intro (lowered_of twice_a) [T 0] 0 1 _ []); reflexivity|]. cbn. apply derives_refl.
  - match goal with |- ~ derives ?g _ _ => set (gr := g) end.
    assert (Hinv : forall a b, derives gr a b -> In a [[NT 1]; [NT 0]; [T 0; NT 2]; [T 1]; [T 0; T 0]] -> In b [[NT 1]; [NT 0]; [T 0; NT 2]; [T 1]; [T 0; T 0]]).
    { intros a b Hd. induction Hd as [l|l m r Hs _ IH]; [auto|]. intro Ha. apply IH. clear IH. destruct Hs as [l n p pr rr Hpp].
      cbn [In] in Ha.
      repeat (destruct Ha as [Ha|Ha]; [
        destruct l as [|X l]; cbn [List.app] in Ha; [|injection Ha as <- Ha; try (destruct l; discriminate); try (destruct l as [|Y l]; cbn [List.app] in Ha; [|injection Ha as <- Ha; try (destruct l; discriminate)])];
        try discriminate; try (injection Ha as <- <-; destruct p as [|[|p]]; cbn in Hpp; try discriminate; try (destruct p; discriminate); injection Hpp as <-; cbn; tauto)
        |]); try contradiction. }
    intro Hd. apply Hinv in Hd; [|cbn; tauto]. cbn in Hd. intuition discriminate.
Qed.

(** The text of the automaton of one macro call determines, up to names, the items and the transitions of every state: another call whose automaton
    prints the same has alike states. *)
Theorem c81_macro {A B} (items : list (grammar_item A)) (items' : list (grammar_item B)) g tbl states entries g' tbl' states' entries' ho ho' s :
  stages items g tbl states entries -> stages items' g' tbl' states' entries' -> plain_names items -> plain_names items' ->
  hash_order_ok ho -> hash_order_ok ho' -> show_automaton ho g states = Ok s -> show_automaton ho' g' states' = Ok s ->
  Forall2 (state_alike g g' ho ho') states states'.
Proof.
  intros (h & f & Hh & Hl & Ht & Ha) (h' & f' & Hh' & Hl' & Ht' & Ha') Hn Hn' Ho Ho' H H'.
  pose proof (plain_identifiers _ _ Hl Hn) as Hg. pose proof (plain_identifiers _ _ Hl' Hn') as Hg'.
  pose proof (automaton_cursors _ _ Hl _ _ _ _ _ Hh Ht Ha) as Hc. pose proof (automaton_cursors _ _ Hl' _ _ _ _ _ Hh' Ht' Ha') as Hc'.
  eapply c81_automaton; eauto.
Qed.

(** *** Cases *)
(** [A = x A | y]: no name twice *)
Definition once : list (grammar_item string) :=
  [ tokens [unit_tok "x" "Token::X"; unit_tok "y" "Token::Y"]; rule true "A" "()" [([$"x"; #"A"], "()"); ([$"y"], "()")] ].
Lemma once_plain : plain_names once.
Proof. intros N HN. cbn in HN. repeat (destruct HN as [<-|HN]; [split; [discriminate|reflexivity]|]). contradiction. Qed.
Lemma once_lowers : lower (declared_nts once) (token_entries once) = Ok (lowered_of once).
Proof. vm_compute. reflexivity. Qed.
Example case_c81_grammar : show_grammar (lowered_of once) = Ok (String.concat newline
  ["0:  A1 = {"; "  0: ""x"" A1"; "  1: ""y"""; "}"; "1: pub A = {"; "  0: A1"; "}"; ""]).
Proof. vm_compute. reflexivity. Qed.
Example case_c81_identifiers : identifiers (lowered_of once).
Proof. exact (plain_identifiers once (lowered_of once) once_lowers once_plain). Qed.
(** The line of an item in it *)
Example case_c81_item it : cursor_ok (lowered_of once) it -> show_item (lowered_of once) it = Ok "[A1 -> ""x"" |A1, $]" ->
  it = {| it_nt := 0; it_prod := 0; it_cursor := 1; it_la := None |}.
Proof.
  intros Hc H. set (i0 := {| it_nt := 0; it_prod := 0; it_cursor := 1; it_la := None |}).
  assert (Hc0 : cursor_ok (lowered_of once) i0) by (intros pr Hp; vm_compute in Hp; injection Hp as <-; cbn; lia).
  assert (Hu : unique_names (lowered_of once)) by (split; cbn; prove_nodup).
  destruct (c81_item (lowered_of once) it i0 _ case_c81_identifiers Hu Hc Hc0 H eq_refl) as (E1 & E2 & E3 & pr & pr' & H1 & H2 & H3).
  destruct it as [n p c la]. cbn in E1, E2, E3. subst. unfold i0. f_equal. cbn in H1, H2. injection H2 as <-.
  destruct p as [|[|p]]; cbn in H1; [reflexivity|injection H1 as <-; discriminate|destruct p; discriminate].
Qed.
(** The arithmetic grammar: everything prints. *)
Example case_c81_prints : (exists s, show_automaton ho_rev arith_g arith_states = Ok s) /\
  exists tb s, build_lr1_table ho_id arith_g arith_states = Ok tb /\ show_table arith_g (@rev _) (fun l => l) tb = Ok s.
Proof.
  split; [eexists; vm_compute; reflexivity|]. destruct (build_lr1_table ho_id arith_g arith_states) as [tb|p|] eqn:E; try (vm_compute in E; discriminate).
  exists tb. assert (Hl : lower (declared_nts arith) (token_entries arith) = Ok arith_g) by (vm_compute; reflexivity).
  destruct (c81_no_panic arith arith_g Hl ho_id 1000 ho_id_ok) as (_ & H & _). destruct (H arith_tbl eq_refl) as (_ & H').
  destruct (H' arith_states arith_entries eq_refl) as (_ & H''). destruct (H'' tb (@rev _) (fun l => l) E) as (s & Hs); [|auto|].
  - intro l. apply Permutation_sym, Permutation_rev.
  - exists s. auto.
Qed.
