(** * LowerProofs: what lowering accepts and what it produces (C31, C32) *)
From Verif Require Export PatternProofs GSpec Wf Lower.
From Coq Require Import NArith.

Section LowerProofs.
Context {A : Type}.
Notation nonterm := (ast_non_terminal A).
Notation lg := (grammar (lexpr A)).

(** ** Terminals *)
Record terms_inv (pre : list conversion) (g : lg) (ti : list (string * nat)) : Prop := {
  ti_nts : g_nts g = [];
  ti_terms : g_terminals g = map cv_from pre;
  ti_dup : NoDup (map cv_from pre);
  ti_get : forall s i, map_get String.eqb s ti = Some i <-> nth_error (map cv_from pre) i = Some s;
  ti_size : (N.of_nat (List.length pre) <= 4294967296)%N
}.

Lemma NoDup_snoc {X} (l : list X) x : NoDup l -> ~ In x l -> NoDup (l ++ [x]).
Proof.
  intros H Hn. apply NoDup_Add with (a := x) (l := l).
  - replace l with (l ++ []) at 1 by apply app_nil_r. apply Add_app.
  - auto.
Qed.

Lemma nth_error_snoc {X} (l : list X) x i y :
  nth_error (l ++ [x]) i = Some y <-> nth_error l i = Some y \/ (i = List.length l /\ x = y).
Proof.
  destruct (Nat.lt_ge_cases i (List.length l)) as [H|H].
  - rewrite nth_error_app1 by auto. split; auto. intros [?|[? _]]; auto; lia.
  - rewrite nth_error_app2 by auto. assert (Hn : nth_error l i = None) by (apply nth_error_None; auto). rewrite Hn.
    destruct (i - List.length l) as [|k] eqn:E.
    + simpl. split; [intro Q; inversion Q; right; split; auto; lia|]. intros [?|[_ ->]]; [discriminate|auto].
    + simpl. assert (Hk : nth_error (@nil X) k = None) by (destruct k; auto). rewrite Hk. split; [discriminate|]. intros [?|[? _]]; [discriminate|lia].
Qed.

Lemma terms_spec cs : forall pre g ti, terms_inv pre g ti ->
  match foldM lower_terminal cs (g, ti) with
  | Ok (g', ti') => terms_inv (pre ++ cs) g' ti'
  | Panic (PDupTerminal _) => ~ NoDup (map cv_from (pre ++ cs))
  | Panic PTryFrom => ~ (N.of_nat (List.length (pre ++ cs)) <= 4294967296)%N
  | _ => False
  end.
Proof.
  induction cs as [|c cs IH]; intros pre g ti Hi; simpl.
  - rewrite app_nil_r. auto.
  - destruct Hi as [H1 H2 H3 H4 H5]. unfold lower_terminal, new_terminal, u32_try_from. rewrite H2, map_length.
    destruct (N.ltb_spec (N.of_nat (List.length pre)) 4294967296) as [Hlt|Hge]; simpl.
    + destruct (map_get String.eqb (cv_from c) ti) as [j|] eqn:Ej; simpl.
      * apply H4 in Ej. apply nth_error_In in Ej. rewrite map_app. simpl.
        intro Hd. apply NoDup_remove_2 in Hd. apply Hd. apply in_app_iff; auto.
      * assert (Hn : ~ In (cv_from c) (map cv_from pre)).
        { intro Hin. apply In_nth_error in Hin. destruct Hin as (i & Hi). apply H4 in Hi. congruence. }
        specialize (IH (pre ++ [c]) {| g_nts := g_nts g; g_terminals := map cv_from pre ++ [cv_from c] |}
                      (map_insert String.eqb (cv_from c) (List.length pre) ti)).
        rewrite <- app_assoc in IH. simpl in IH. apply IH. constructor; simpl; auto.
        -- rewrite map_app. auto.
        -- rewrite map_app. simpl. apply NoDup_snoc; auto.
        -- intros s i. rewrite map_app. simpl. rewrite nth_error_snoc, map_length.
           destruct (string_dec s (cv_from c)) as [->|Hne].
           ++ rewrite (map_get_insert_same _ String.eqb_eq). split.
              ** intro Q; inversion Q; auto.
              ** intros [Q|[-> _]]; auto. apply nth_error_In in Q. contradiction.
           ++ rewrite (map_get_insert_other _ String.eqb_eq) by auto. rewrite H4. split; auto.
              intros [?|[_ Q]]; auto. congruence.
        -- rewrite app_length. simpl. lia.
    + intro Hle. rewrite app_length in Hle. simpl in Hle. lia.
Qed.

Lemma terms_start : terms_inv [] grammar_new [].
Proof.
  constructor; auto; [constructor| |simpl; lia]. intros s i. simpl. split; [discriminate|]. destruct i; discriminate.
Qed.

(** ** Non-terminals *)
Definition width (N : nonterm) : nat := if an_pub N then 2 else 1.
Definition nt_of (nm : string) (ps : list (production (lexpr A))) (t : ty) (b : bool) : non_terminal (lexpr A) :=
  {| nt_name := nm; nt_productions := ps; nt_return_ty := t; nt_public := b |}.
Definition entry_production (i : nat) : production (lexpr A) :=
  {| p_symbols := [entry_symbol i]; p_action := EVar "x"%string |}.
(** The lowered non-terminals of one declaration whose body gets index [k] and productions [ps]. *)
Definition block (N : nonterm) (k : nat) (ps : list (production (lexpr A))) : list (non_terminal (lexpr A)) :=
  if an_pub N then [nt_of (an_name N ++ "1")%string ps (an_type N) false; nt_of (an_name N) [entry_production k] (an_type N) true]
  else [nt_of (an_name N) ps (an_type N) false].
Fixpoint slots (k : nat) (nts : list nonterm) : list (nonterm * nat) :=
  match nts with [] => [] | N :: r => (N, k) :: slots (k + width N) r end.
Definition skeleton (k : nat) (nts : list nonterm) : list (non_terminal (lexpr A)) :=
  flat_map (fun x => block (fst x) (snd x) []) (slots k nts).
Definition insert_slots (l : list (nonterm * nat)) (m : list (string * nat)) : list (string * nat) :=
  fold_left (fun m x => map_insert String.eqb (an_name (fst x)) (snd x) m) l m.

Lemma update_nth_last {X} (f : X -> X) l x : update_nth (List.length l) f (l ++ [x]) = l ++ [f x].
Proof. induction l; simpl; auto. rewrite IHl; auto. Qed.

Lemma nts_fold nts : forall (g : lg) m, fold_left lower_non_terminal nts (g, m) =
  ({| g_nts := g_nts g ++ skeleton (List.length (g_nts g)) nts; g_terminals := g_terminals g |},
   insert_slots (slots (List.length (g_nts g)) nts) m).
Proof.
  induction nts as [|N nts IH]; intros g m; cbn [fold_left slots].
  - unfold skeleton; simpl. rewrite app_nil_r. destruct g; auto.
  - unfold lower_non_terminal at 2. unfold skeleton, width. cbn [slots flat_map insert_slots fold_left fst snd].
    unfold block, width. destruct (an_pub N).
    + unfold add_non_terminal, add_production. cbn [g_nts g_terminals]. rewrite update_nth_last, IH.
      cbn [g_nts g_terminals]. rewrite !app_length. simpl List.length. rewrite <- !app_assoc, <- Nat.add_assoc. reflexivity.
    + unfold add_non_terminal. rewrite IH. cbn [g_nts g_terminals]. rewrite !app_length. simpl List.length.
      rewrite <- !app_assoc. reflexivity.
Qed.

Lemma insert_slots_other l k : ~ In k (map (fun x => an_name (fst x)) l) ->
  forall m, map_get String.eqb k (insert_slots l m) = map_get String.eqb k m.
Proof.
  induction l as [|x l IH]; simpl; intros H m; auto. unfold insert_slots in *. simpl. rewrite IH by tauto.
  apply map_get_insert_other; [apply String.eqb_eq|]. intro; subst; tauto.
Qed.

(** Every declared name has an index, and it is the index of a body. *)
Lemma insert_slots_get l k : forall m,
  (exists N i, In (N, i) l /\ an_name N = k /\ map_get String.eqb k (insert_slots l m) = Some i) \/
  (~ In k (map (fun x => an_name (fst x)) l) /\ map_get String.eqb k (insert_slots l m) = map_get String.eqb k m).
Proof.
  induction l as [|[N i] l IH]; intro m; simpl; [auto|].
  unfold insert_slots in *. simpl.
  destruct (IH (map_insert String.eqb (an_name N) i m)) as [(N' & j & H1 & H2 & H3)|[H1 H2]].
  - left. exists N', j. auto.
  - destruct (string_dec k (an_name N)) as [->|Hne].
    + left. exists N, i. split; auto. split; auto. rewrite H2. apply map_get_insert_same, String.eqb_eq.
    + right. rewrite H2. split; [intros [?|?]; [congruence|auto]|].
      apply map_get_insert_other; [apply String.eqb_eq|auto].
Qed.

Lemma insert_slots_unique l : NoDup (map (fun x => an_name (fst x)) l) -> forall N i m, In (N, i) l ->
  map_get String.eqb (an_name N) (insert_slots l m) = Some i.
Proof.
  induction l as [|[M j] l IH]; simpl; intros Hn N i m Hin; [contradiction|]. inversion Hn; subst.
  unfold insert_slots in *. simpl. destruct Hin as [Heq|Hin].
  - inversion Heq; subst. pose proof (insert_slots_other l (an_name N) H1) as Ho. unfold insert_slots in Ho. rewrite Ho.
    apply map_get_insert_same, String.eqb_eq.
  - apply IH; auto.
Qed.

Lemma slots_fst nts : forall k, map fst (slots k nts) = nts.
Proof. induction nts; simpl; intro k; auto. rewrite IHnts; auto. Qed.
Lemma slots_names nts k : map (fun x => an_name (fst x)) (slots k nts) = map an_name nts.
Proof. rewrite <- (slots_fst nts k) at 2. rewrite map_map. auto. Qed.

(** Positions in a list of blocks. *)
Lemma blocks_nth (body : nonterm * nat -> list (production (lexpr A))) nts : forall k N i, In (N, i) (slots k nts) ->
  k <= i /\ forall j x, nth_error (block N i (body (N, i))) j = Some x ->
    nth_error (flat_map (fun y => block (fst y) (snd y) (body y)) (slots k nts)) (i - k + j) = Some x.
Proof.
  induction nts as [|M nts IH]; intros k N i Hin; [contradiction|]. cbn [slots] in Hin. destruct Hin as [Heq|Hin].
  - inversion Heq; subst. split; auto. intros j x Hx. rewrite Nat.sub_diag. cbn [slots flat_map fst snd].
    rewrite nth_error_app1; auto. apply nth_error_Some. simpl. congruence.
  - destruct (IH _ _ _ Hin) as [H1 H2]. split; [lia|]. intros j x Hx. cbn [slots flat_map fst snd].
    assert (Hl : List.length (block M k (body (M, k))) = width M) by (unfold block, width; destruct (an_pub M); auto).
    rewrite nth_error_app2 by lia. rewrite Hl.
    replace (i - k + j - width M) with (i - (k + width M) + j) by lia. apply H2; auto.
Qed.

Lemma blocks_nth_inv (body : nonterm * nat -> list (production (lexpr A))) nts : forall k n x,
  nth_error (flat_map (fun y => block (fst y) (snd y) (body y)) (slots k nts)) n = Some x ->
  exists N i j, In (N, i) (slots k nts) /\ nth_error (block N i (body (N, i))) j = Some x /\ n = i - k + j.
Proof.
  induction nts as [|M nts IH]; intros k n x Hx; cbn [slots flat_map fst snd] in Hx; [destruct n; discriminate|].
  assert (Hl : List.length (block M k (body (M, k))) = width M) by (unfold block, width; destruct (an_pub M); auto).
  destruct (Nat.lt_ge_cases n (width M)) as [H|H].
  - rewrite nth_error_app1 in Hx by lia. exists M, k, n. split; [left; auto|]. split; auto. lia.
  - rewrite nth_error_app2 in Hx by lia. rewrite Hl in Hx. destruct (IH _ _ _ Hx) as (N & i & j & H1 & H2 & H3).
    exists N, i, j. split; [right; auto|]. split; auto.
    destruct (blocks_nth body nts _ _ _ H1) as [Hle _]. lia.
Qed.

(** ** Productions *)
Section Prods.
Variable ni ti : list (string * nat).

(** The lowered form of one production. *)
Definition lprod (p : ast_production A) : res (production (lexpr A)) :=
  let* symbols := mapM (lower_symbol ni ti None) (ap_symbols p) in
  match ap_action p with
  | Infallible e => Ok {| p_symbols := symbols; p_action := EUser e |}
  | Fallible _ => Panic PFallibleUnsupported
  end.
Definition lprods (N : nonterm) : list (production (lexpr A)) :=
  match mapM lprod (an_productions N) with Ok ps => ps | _ => [] end.

Lemma lower_production_spec nm i g p : map_get String.eqb nm ni = Some i ->
  lower_production ni ti nm g p =
  let* q := lprod p in Ok (add_production g i (p_symbols q) (p_action q)).
Proof.
  intro H. unfold lower_production, lprod. destruct (mapM (lower_symbol ni ti None) (ap_symbols p)); simpl; auto.
  rewrite H. destruct (ap_action p); auto.
Qed.

Definition with_prods (l : list (production (lexpr A))) (N : non_terminal (lexpr A)) : non_terminal (lexpr A) :=
  nt_of (nt_name N) (nt_productions N ++ l) (nt_return_ty N) (nt_public N).

Lemma update_nth_id {X} (f : X -> X) (Hf : forall x, f x = x) l : forall i, update_nth i f l = l.
Proof. induction l; intros [|i]; simpl; auto; congruence. Qed.
Lemma update_nth_twice {X} (f h k : X -> X) (Hf : forall x, f (h x) = k x) l : forall i,
  update_nth i f (update_nth i h l) = update_nth i k l.
Proof. induction l; intros [|i]; simpl; auto; congruence. Qed.

Lemma with_prods_nil N : with_prods [] N = N.
Proof. unfold with_prods, nt_of. rewrite app_nil_r. destruct N; auto. Qed.
Lemma with_prods_app a b N : with_prods b (with_prods a N) = with_prods (a ++ b) N.
Proof. unfold with_prods, nt_of. simpl. rewrite app_assoc. auto. Qed.

Lemma fold_prods nm i (H : map_get String.eqb nm ni = Some i) ps : forall g,
  foldM (lower_production ni ti nm) ps g =
  let* qs := mapM lprod ps in Ok {| g_nts := update_nth i (with_prods qs) (g_nts g); g_terminals := g_terminals g |}.
Proof.
  induction ps as [|p ps IH]; intro g.
  - simpl. rewrite update_nth_id by apply with_prods_nil. destruct g; auto.
  - cbn [foldM mapM]. rewrite (lower_production_spec nm i g p H). destruct (lprod p) as [q|e|]; auto. cbn [bind].
    rewrite IH. destruct (mapM lprod ps) as [qs|e|]; auto. cbn [bind]. unfold add_production; simpl. f_equal. f_equal.
    apply update_nth_twice. intro x. destruct q as [qa qb]. unfold push_production. simpl.
    unfold with_prods, nt_of; simpl. rewrite <- app_assoc. auto.
Qed.

(** All productions that land on index [n]. *)
Definition added (nts : list nonterm) (n : nat) : list (production (lexpr A)) :=
  flat_map (fun N => if opt_nat_eqb (map_get String.eqb (an_name N) ni) (Some n) then lprods N else []) nts.

Lemma fold_nts nts : (forall N, In N nts -> exists i, map_get String.eqb (an_name N) ni = Some i) -> forall g,
  match foldM (lower_productions ni ti) nts g with
  | Ok g' => g_terminals g' = g_terminals g /\
      (forall N, In N nts -> exists ps, mapM lprod (an_productions N) = Ok ps) /\
      (forall n, nth_error (g_nts g') n = option_map (with_prods (added nts n)) (nth_error (g_nts g) n))
  | Panic _ => exists N, In N nts /\ exists e, mapM lprod (an_productions N) = Panic e
  | OutOfFuel => exists N, In N nts /\ mapM lprod (an_productions N) = OutOfFuel
  end.
Proof.
  induction nts as [|N nts IH]; intros Hn g; simpl.
  - split; auto. split; [tauto|]. intro n. destruct (nth_error (g_nts g) n); simpl; auto. rewrite with_prods_nil; auto.
  - destruct (Hn N (or_introl eq_refl)) as (i & Hi). unfold lower_productions at 1. rewrite (fold_prods _ _ Hi).
    destruct (mapM lprod (an_productions N)) as [ps|e|] eqn:Ep; simpl; eauto.
    specialize (IH (fun M HM => Hn M (or_intror HM)) {| g_nts := update_nth i (with_prods ps) (g_nts g); g_terminals := g_terminals g |}).
    destruct (foldM (lower_productions ni ti) nts _) as [g'|e|].
    + destruct IH as (I1 & I2 & I3). split; auto. split.
      * intros M [->|HM]; eauto.
      * intro n. rewrite I3. simpl. rewrite nth_error_update_nth. unfold added at 2. simpl. rewrite Hi. simpl.
        unfold lprods at 1. rewrite Ep. destruct (i =? n); [|auto].
        destruct (nth_error (g_nts g) n); simpl; auto. rewrite with_prods_app. auto.
    + destruct IH as (M & H1 & H2). eauto.
    + destruct IH as (M & H1 & H2). eauto.
Qed.
End Prods.

(** ** Lowering as a whole *)
Definition nt_indices_of (nts : list nonterm) : list (string * nat) := insert_slots (slots 0 nts) [].

Lemma nt_indices_some nts nm : In nm (map an_name nts) ->
  exists N i, In (N, i) (slots 0 nts) /\ an_name N = nm /\ map_get String.eqb nm (nt_indices_of nts) = Some i.
Proof.
  intro H. destruct (insert_slots_get (slots 0 nts) nm []) as [?|[H1 _]]; auto.
  rewrite slots_names in H1. contradiction.
Qed.
Lemma nt_indices_inv nts nm i : map_get String.eqb nm (nt_indices_of nts) = Some i ->
  exists N, In (N, i) (slots 0 nts) /\ an_name N = nm.
Proof.
  intro H. destruct (insert_slots_get (slots 0 nts) nm []) as [(N & j & H1 & H2 & H3)|[_ H1]].
  - unfold nt_indices_of in H. rewrite H3 in H. inversion H; subst. eauto.
  - unfold nt_indices_of in H. rewrite H1 in H. discriminate.
Qed.
Lemma slots_In nts : forall k N i, In (N, i) (slots k nts) -> In N nts.
Proof. intros k N i H. rewrite <- (slots_fst nts k). apply (in_map fst) in H. auto. Qed.

Record lowered (nts : list nonterm) (cs : list conversion) (ti : list (string * nat)) (g : lg) : Prop := {
  lo_terms : g_terminals g = map cv_from cs;
  lo_ti : terms_inv cs {| g_nts := []; g_terminals := map cv_from cs |} ti;
  lo_prods : forall N, In N nts -> exists ps, mapM (lprod (nt_indices_of nts) ti) (an_productions N) = Ok ps;
  lo_nts : forall n, nth_error (g_nts g) n =
    option_map (with_prods (added (nt_indices_of nts) ti nts n)) (nth_error (skeleton 0 nts) n)
}.

Lemma lower_spec nts cs :
  match lower nts cs with
  | Ok g => exists ti, lowered nts cs ti g
  | Panic _ =>
      ~ NoDup (map cv_from cs) \/ ~ (N.of_nat (List.length cs) <= 4294967296)%N \/
      exists ti N e, terms_inv cs {| g_nts := []; g_terminals := map cv_from cs |} ti /\ In N nts /\
        mapM (lprod (nt_indices_of nts) ti) (an_productions N) = Panic e
  | OutOfFuel => exists ti N, In N nts /\ mapM (lprod (nt_indices_of nts) ti) (an_productions N) = OutOfFuel
  end.
Proof.
  unfold lower. pose proof (terms_spec cs [] _ _ terms_start) as Ht. simpl in Ht.
  destruct (foldM lower_terminal cs (grammar_new, [])) as [[g0 ti]|e|]; [|destruct e; simpl; auto; contradiction|contradiction].
  cbn [bind]. rewrite nts_fold.
  assert (Hg0 : g0 = {| g_nts := []; g_terminals := map cv_from cs |}).
  { destruct Ht as [H1 H2 _ _ _]. destruct g0; simpl in *; subst; auto. }
  subst g0. cbn [g_nts g_terminals List.length app].
  fold (nt_indices_of nts).
  pose proof (fold_nts (nt_indices_of nts) ti nts) as Hf.
  specialize (Hf ltac:(intros N HN; destruct (nt_indices_some nts (an_name N) (in_map _ _ _ HN)) as (M & i & _ & _ & Q); eauto)).
  specialize (Hf {| g_nts := skeleton 0 nts; g_terminals := map cv_from cs |}).
  destruct (foldM (lower_productions (nt_indices_of nts) ti) nts _) as [g|e|].
  - destruct Hf as (F1 & F2 & F3). exists ti. constructor; auto.
  - destruct Hf as (N & F1 & e' & F2). right; right. exists ti, N, e'. auto.
  - destruct Hf as (N & F1 & F2). eauto.
Qed.

(** ** Which productions lower *)
Lemma lower_symbol_spec nts cs ti g s : terms_inv cs g ti -> forall b,
  match lower_symbol (nt_indices_of nts) ti b s with
  | Ok x => symbol_ok nts cs s /\
      bs_binder x = match binder_of s with Some y => Some y | None => b end /\
      match unnamed s with
      | ASTerminal t => exists i, nth_error (map cv_from cs) i = Some t /\ bs_symbol x = T i
      | ASNonTerminal n => exists i, map_get String.eqb n (nt_indices_of nts) = Some i /\ bs_symbol x = NT i
      | _ => False
      end
  | Panic _ => ~ symbol_ok nts cs s
  | OutOfFuel => False
  end.
Proof.
  intro Ht. induction s as [t|n|op s IH|nm s IH]; intro b; cbn [lower_symbol].
  - destruct (map_get String.eqb t ti) as [i|] eqn:E; unfold symbol_ok; simpl.
    + apply (ti_get _ _ _ Ht) in E. split; [eapply nth_error_In; eauto|]. eauto.
    + intro Hin. apply In_nth_error in Hin. destruct Hin as (i & Hi). apply (ti_get _ _ _ Ht) in Hi. congruence.
  - destruct (map_get String.eqb n (nt_indices_of nts)) as [i|] eqn:E; unfold symbol_ok; simpl.
    + split; [|eauto]. destruct (nt_indices_inv _ _ _ E) as (N & H1 & <-). apply in_map. eapply slots_In; eauto.
    + intro Hin. destruct (nt_indices_some _ _ Hin) as (N & i & _ & _ & Q). congruence.
  - unfold symbol_ok; simpl; auto.
  - specialize (IH (Some nm)). destruct (lower_symbol (nt_indices_of nts) ti (Some nm) s) as [x|e|]; auto.
    destruct IH as (H1 & H2 & H3). unfold symbol_ok in *. simpl. split; auto. split; auto.
    rewrite H2. destruct (binder_of s); auto.
Qed.

Lemma mapM_total {X Y} (f : X -> res Y) l : (forall x, In x l -> exists y, f x = Ok y) -> exists l', mapM f l = Ok l'.
Proof.
  induction l as [|x l IH]; simpl; intro H; eauto. destruct (H x (or_introl eq_refl)) as (y & ->).
  destruct IH as (l' & ->); auto. simpl. eauto.
Qed.
Lemma mapM_panic {X Y} (f : X -> res Y) l e : mapM f l = Panic e -> exists x, In x l /\ f x = Panic e.
Proof.
  induction l as [|x l IH]; simpl; [discriminate|]. destruct (f x) as [y|e'|] eqn:E; simpl.
  - destruct (mapM f l); simpl; try discriminate. intro H; inversion H; subst. destruct IH as (z & ? & ?); eauto.
  - intro H; inversion H; subst; eauto.
  - discriminate.
Qed.
Lemma mapM_oof {X Y} (f : X -> res Y) l : mapM f l = OutOfFuel -> exists x, In x l /\ f x = OutOfFuel.
Proof.
  induction l as [|x l IH]; simpl; [discriminate|]. destruct (f x) as [y|e'|] eqn:E; simpl; try discriminate; eauto.
  destruct (mapM f l); simpl; try discriminate. intro H. destruct IH as (z & ? & ?); eauto.
Qed.

Lemma lprod_spec nts cs ti g p : terms_inv cs g ti ->
  match lprod (nt_indices_of nts) ti p with
  | Ok q => production_ok nts cs p /\ mapM (lower_symbol (nt_indices_of nts) ti None) (ap_symbols p) = Ok (p_symbols q) /\
      p_action q = EUser (action_expr (ap_action p))
  | Panic _ => ~ production_ok nts cs p
  | OutOfFuel => False
  end.
Proof.
  intro Ht. unfold lprod, production_ok.
  destruct (mapM (lower_symbol (nt_indices_of nts) ti None) (ap_symbols p)) as [ss|e|] eqn:E; simpl.
  - destruct (ap_action p) as [a|a]; simpl.
    + split; auto. split; eauto. apply mapM_Forall2 in E. induction E; constructor; auto.
      pose proof (lower_symbol_spec nts cs ti g x Ht None) as Hs. rewrite H in Hs. tauto.
    + intros (_ & e & H). discriminate.
  - intros (H & _). apply mapM_panic in E. destruct E as (x & Hx & Ex). rewrite Forall_forall in H.
    pose proof (lower_symbol_spec nts cs ti g x Ht None) as Hs. rewrite Ex in Hs. apply Hs. auto.
  - apply mapM_oof in E. destruct E as (x & Hx & Ex).
    pose proof (lower_symbol_spec nts cs ti g x Ht None) as Hs. rewrite Ex in Hs. auto.
Qed.

(** C32 *)
Theorem lower_ok_iff (nts : list nonterm) cs : (exists g, lower nts cs = Ok g) <-> supported nts cs.
Proof.
  pose proof (lower_spec nts cs) as H. split.
  - intros (g & Hg). rewrite Hg in H. destruct H as (ti & [L1 L2 L3 L4]).
    split; [apply (ti_dup _ _ _ L2)|]. split; [apply (ti_size _ _ _ L2)|].
    intros N p HN Hp. destruct (L3 N HN) as (ps & Hps). apply mapM_Forall2 in Hps.
    apply In_nth_error in Hp. destruct Hp as (j & Hj). destruct (Forall2_nth_error _ _ _ Hps _ _ Hj) as (q & _ & Hq).
    pose proof (lprod_spec nts cs ti _ p L2) as Hs. rewrite Hq in Hs. tauto.
  - intros (S1 & S2 & S3). destruct (lower nts cs) as [g|e|]; [eauto| |].
    + exfalso. destruct H as [H|[H|(ti & N & e' & Ht & HN & H)]]; auto.
      apply mapM_panic in H. destruct H as (p & Hp & H).
      pose proof (lprod_spec nts cs ti _ p Ht) as Hs. rewrite H in Hs. apply Hs. eauto.
    + exfalso. destruct H as (ti & N & HN & H). apply mapM_oof in H. destruct H as (p & Hp & H).
      unfold lprod in H. destruct (mapM (lower_symbol (nt_indices_of nts) ti None) (ap_symbols p)) as [ss|e|] eqn:E; simpl in H; try discriminate.
      * destruct (ap_action p); discriminate.
      * apply mapM_oof in E. destruct E as (x & Hx & Ex). clear - Ex. revert Ex. generalize (@None name).
        induction x; simpl; intro b; try destruct (map_get _ _ _); try discriminate. apply IHx.
Qed.

Lemma lower_no_fuel (nts : list nonterm) cs : lower nts cs <> OutOfFuel.
Proof.
  intro Hl. pose proof (lower_spec nts cs) as H. rewrite Hl in H. destruct H as (ti & N & HN & H).
  apply mapM_oof in H. destruct H as (p & Hp & H).
  unfold lprod in H. destruct (mapM (lower_symbol (nt_indices_of nts) ti None) (ap_symbols p)) as [ss|e|] eqn:E; simpl in H; try discriminate.
  - destruct (ap_action p); discriminate.
  - apply mapM_oof in E. destruct E as (x & Hx & Ex). clear - Ex. revert Ex. generalize (@None name).
    induction x; simpl; intro b; try destruct (map_get _ _ _); try discriminate. apply IHx.
Qed.
End LowerProofs.
