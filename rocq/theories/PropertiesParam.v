(** * PropertiesParam: one parser, two versions of the user's code (C48, C49, C50)

    Vocabulary: ParamSpec.v, PropSpec.v, Spec.v. *)
From Verif Require Import ParamProofs.
From Verif Require Export ParamSpec Properties.
Local Open Scope string_scope. Local Open Scope list_scope.

(** ** C48: values pass through a parser untouched

    For any relation between the values of two versions of the user's code (per Rust type, per token
    entry) that actions and tokens respect, related inputs give related results: the generated code never
    makes up, inspects, duplicates or mixes up values, nor confuses values of different types. *)
Section C48.
Context {A E E' V V' W W' I I' : Type}.
Variable items : list (grammar_item A).
Variable gp : generated (lexpr A).
Variable pr : parser_struct.
Variables (inj : rval -> V) (inj' : rval -> V').
Variable usem : A -> list (string * bval V) -> W -> option (V * W).
Variable usem' : A -> list (string * bval V') -> W' -> option (V' * W').
Variable next : I -> option (rval + E) * I.
Variable next' : I' -> option (rval + E') * I'.
Variable R : ty -> V -> V' -> Prop.
Variable RF : string -> list V -> list V' -> Prop.
Variable RW : W -> W' -> Prop.
Variable RE : E -> E' -> Prop.

Theorem c48_related it it' w w' o evs l' it'' : parser_of items gp pr -> actions_related items R RF RW usem usem' -> RW w w' ->
  returns_with gp inj usem next pr it w o evs ->
  answers next' it' l' it'' -> Forall2 (response_related (token_related items RF inj inj') RE) (nexts_of evs) l' ->
  exists o' evs', returns_with gp inj' usem' next' pr it' w' o' evs' /\
    result_related (R (pr_return_ty pr)) RE (oc_result o) (oc_result o') /\ RW (oc_world o) (oc_world o') /\
    oc_iter o' = it'' /\ Forall2 (call_related (token_related items RF inj inj') RE) evs evs'.
Proof. intros Hp Ha. exact (related_returns items gp pr Hp inj inj' usem usem' next next' R RF RW RE Ha _ (fun _ _ H => H) it it' w w' o evs l' it''). Qed.

(** The same for a run that has not returned yet. *)
Theorem c48_related_running it it' w w' n it1 w1 evs l' it'' : parser_of items gp pr -> actions_related items R RF RW usem usem' -> RW w w' ->
  running gp inj usem next pr it w n it1 w1 evs ->
  answers next' it' l' it'' -> Forall2 (response_related (token_related items RF inj inj') RE) (nexts_of evs) l' ->
  exists w1' evs', running gp inj' usem' next' pr it' w' n it'' w1' evs' /\ RW w1 w1' /\
    Forall2 (call_related (token_related items RF inj inj') RE) evs evs'.
Proof. intros Hp Ha. exact (related_running items gp pr Hp inj inj' usem usem' next next' R RF RW RE Ha _ (fun _ _ H => H) it it' w w' n it1 w1 evs l' it''). Qed.
End C48.

Lemma Forall2_diag {X} (P : X -> X -> Prop) l : (forall x, In x l -> P x x) -> Forall2 P l l.
Proof. induction l; intro H; constructor; [apply H; left; auto|apply IHl; intros; apply H; right; auto]. Qed.
Lemma Forall2_weaken_ {X Y} (P Q : X -> Y -> Prop) l l' : (forall x y, P x y -> Q x y) -> Forall2 P l l' -> Forall2 Q l l'.
Proof. intros H; induction 1; constructor; auto. Qed.
Lemma Forall2_eq_list {X} (l l' : list X) : Forall2 eq l l' -> l = l'.
Proof. induction 1; congruence. Qed.
Lemma call_eq {Tok E} (R : Tok -> Tok -> Prop) (e e' : event Tok E) : (forall x y, R x y -> x = y) -> call_related R eq e e' -> e = e'.
Proof.
  intros H. destruct e as [[[t|x]|]|a], e' as [[[t'|x']|]|a']; cbn; try contradiction; intro Hr; auto; f_equal; try f_equal; try f_equal; auto.
Qed.
Lemma result_eq {V E} (R : V -> V -> Prop) (r r' : presult V E) : (forall x y, R x y -> x = y) -> result_related R eq r r' -> r = r'.
Proof.
  intros H. destruct r, r'; cbn; try contradiction; intro Hr; try (f_equal; auto; fail). destruct Hr; congruence.
Qed.

(** Type safety: if actions compute values of the declared types from well-typed variables, and tokens
    carry well-typed fields, then the value returned has the entry point's type, and actions are only ever
    run on well-typed variables: what they would do on others does not matter. *)
Section Typed.
Context {A E V W I : Type}.
Variable items : list (grammar_item A).
Variable gp : generated (lexpr A).
Variable pr : parser_struct.
Variable inj : rval -> V.
Variable usem : A -> list (string * bval V) -> W -> option (V * W).
Variable next : I -> option (rval + E) * I.
Variable T : ty -> V -> Prop.
Variable TF : string -> list V -> Prop.
Let R t x x' := x = x' /\ T t x.
Let RF s fs fs' := fs = fs' /\ TF s fs.

Lemma symbol_diag s b b' : symbol_related items R RF s b b' -> b = b' /\ symbol_typed items T TF s b.
Proof.
  induction 1 as [x s b b' _ (IH1 & IH2)|t fs fs' (H1 & H2)|N x x' HN (H1 & H2)]; subst; (split; [reflexivity|]); constructor; auto.
Qed.
Lemma scope_diag ss vs vs' : scope_related items R RF ss vs vs' -> vs = vs' /\ scope_typed items T TF ss vs.
Proof.
  induction 1 as [|s ss vs vs' Hb _ (IH1 & IH2)|s x b b' ss vs vs' Hb Hs _ (IH1 & IH2)]; subst.
  - split; [auto|constructor].
  - split; [auto|apply ss_unbound; auto].
  - apply symbol_diag in Hs. destruct Hs as (-> & Hs). split; [auto|apply ss_bound; auto].
Qed.

Theorem c48_typed it w o evs : parser_of items gp pr -> actions_typed items T TF usem ->
  returns_with gp inj usem next pr it w o evs -> (forall tok, In (Some (inl tok)) (nexts_of evs) -> token_typed items TF inj tok) ->
  (forall v, oc_result o = POk v -> T (pr_return_ty pr) v) /\
  forall usem', agree_on_typed items T TF usem usem' -> returns_with gp inj usem' next pr it w o evs.
Proof.
  intros Hp Ha Hr Ht.
  assert (Hmain : forall usem', agree_on_typed items T TF usem usem' -> exists o' evs', returns_with gp inj usem' next pr it w o' evs' /\
    result_related (R (pr_return_ty pr)) eq (oc_result o) (oc_result o') /\ oc_world o = oc_world o' /\ oc_iter o' = oc_iter o /\
    Forall2 (call_related (fun tok tok' => tok = tok' /\ token_typed items TF inj tok) eq) evs evs').
  { intros usem' Hg. pose proof Hr as (fuel & Hf & Hev). pose proof (parse_answers _ _ _ _ _ _ _ Hf) as Han. rewrite Hev in Han. cbn [e_next user_env] in Han.
    apply (related_returns items gp pr Hp inj inj usem usem' next next R RF eq eq) with (it := it) (w := w) (l' := nexts_of evs) (it'' := oc_iter o); auto.
    - intros N q vs vs' w0 w0' HN Hq Hs <-. apply scope_diag in Hs. destruct Hs as (<- & Hs). rewrite <- (Hg N q vs w0 HN Hq Hs).
      destruct (usem (action_expr (ap_action q)) vs w0) as [[v w1]|] eqn:Eu; cbn; auto. split; auto. split; auto. eapply Ha; eauto.
    - intros tok tok' (<- & H). split; auto. intros s Hs. split; auto.
    - apply Forall2_diag. intros [[tok|e]|] Hin; cbn; auto. }
  split.
  - intros v Hv. destruct (Hmain usem) as (o' & evs' & _ & H1 & _); [intros N q vs w0 _ _ _; reflexivity|].
    rewrite Hv in H1. destruct (oc_result o'); cbn in H1; try contradiction. apply H1.
  - intros usem' Hg. destruct (Hmain usem' Hg) as (o' & evs' & H1 & H2 & H3 & H4 & H5).
    assert (o' = o).
    { destruct o, o'. cbn in *. f_equal; auto. symmetry. eapply result_eq; [|exact H2]. intros x y (Hxy & _). exact Hxy. }
    assert (evs' = evs).
    { symmetry. apply Forall2_eq_list. eapply Forall2_weaken_; [|exact H5]. intros e e' He. eapply call_eq; [|exact He]. intros x y (Hxy & _). exact Hxy. }
    subst. exact H1.
Qed.
End Typed.

(** ** C49: the outcome depends on the responses of [next()] only

    The responses recorded among the calls are all the calls made on the iterator; any other iterator, of any
    type, that answers in the same way leads to the same result, world and calls. *)
Section C49.
Context {A E V W I : Type}.
Variable items : list (grammar_item A).
Variable gp : generated (lexpr A).
Variable pr : parser_struct.
Variable inj : rval -> V.
Variable usem : A -> list (string * bval V) -> W -> option (V * W).

Theorem c49_responses (next : I -> option (rval + E) * I) it w o evs : returns_with gp inj usem next pr it w o evs ->
  answers next it (nexts_of evs) (oc_iter o).
Proof. intros (fuel & Hf & <-). exact (parse_answers gp pr (user_env gp inj usem next) fuel it w o Hf). Qed.
Theorem c49_responses_running (next : I -> option (rval + E) * I) it w n it' w' evs : running gp inj usem next pr it w n it' w' evs ->
  answers next it (nexts_of evs) it'.
Proof.
  intros (st & Hs & <- & <- & <-). rewrite iterations_iter in Hs. unfold parse_events.
  exact (answers_cat (user_env gp inj usem next) _ _ _ _ _ (init_answers pr (user_env gp inj usem next) it w) (iter_answers gp pr (user_env gp inj usem next) _ _ _ Hs)).
Qed.

Context {I' : Type}.
Lemma refl_actions : actions_related items (fun _ => @eq V) (fun _ => @eq (list V)) (@eq W) usem usem.
Proof.
  intros N q vs vs' w w' HN Hq Hs Hw. subst w'.
  assert (Hsy : forall s b b', symbol_related items (fun _ => @eq V) (fun _ => @eq (list V)) s b b' -> b = b') by (induction 1; congruence).
  assert (vs = vs') by (clear - Hs Hsy; induction Hs; try congruence; apply Hsy in H0; congruence).
  subst vs'. destruct (usem (action_expr (ap_action q)) vs w) as [[v w1]|]; cbn; auto.
Qed.

Theorem c49_same_responses (next : I -> option (rval + E) * I) (next' : I' -> option (rval + E) * I') it it' w o evs it'' :
  parser_of items gp pr -> returns_with gp inj usem next pr it w o evs -> answers next' it' (nexts_of evs) it'' ->
  returns_with gp inj usem next' pr it' w {| oc_result := oc_result o; oc_iter := it''; oc_world := oc_world o |} evs.
Proof.
  intros Hp Hr Ha.
  destruct (related_returns items gp pr Hp inj inj usem usem next next' _ _ _ eq refl_actions eq) with (it := it) (it' := it') (w := w) (w' := w) (o := o) (evs := evs) (l' := nexts_of evs) (it'' := it'')
    as (o' & evs' & H1 & H2 & H3 & H4 & H5); auto.
  - intros tok tok' <-. split; auto.
  - apply Forall2_diag. intros [[tok|e]|] _; cbn; auto.
  - assert (evs' = evs).
    { symmetry. apply Forall2_eq_list. eapply Forall2_weaken_; [|exact H5]. intros e e' He. eapply call_eq; [|exact He]. auto. }
    assert (Hre : oc_result o = oc_result o') by (eapply result_eq; [|exact H2]; auto).
    destruct o' as [r' i' w']. cbn in *. subst. exact H1.
Qed.
Theorem c49_same_responses_running (next : I -> option (rval + E) * I) (next' : I' -> option (rval + E) * I') it it' w n it1 w1 evs it'' :
  parser_of items gp pr -> running gp inj usem next pr it w n it1 w1 evs -> answers next' it' (nexts_of evs) it'' ->
  running gp inj usem next' pr it' w n it'' w1 evs.
Proof.
  intros Hp Hr Ha.
  destruct (related_running items gp pr Hp inj inj usem usem next next' _ _ _ eq refl_actions eq) with (it := it) (it' := it') (w := w) (w' := w) (n := n) (it1 := it1) (w1 := w1) (evs := evs) (l' := nexts_of evs) (it'' := it'')
    as (w' & evs' & H1 & H2 & H5); auto.
  - intros tok tok' <-. split; auto.
  - apply Forall2_diag. intros [[tok|e]|] _; cbn; auto.
  - assert (evs' = evs).
    { symmetry. apply Forall2_eq_list. eapply Forall2_weaken_; [|exact H5]. intros e e' He. eapply call_eq; [|exact He]. auto. }
    subst. exact H1.
Qed.
End C49.

(** ** C50: payloads and values do not influence parsing

    With actions that do not panic, two runs that are answered with tokens of the same entries call the same
    actions in the same order, read the same number of tokens, and end in the same kind of result, with the
    same error strings, whatever the payloads of the tokens, the values computed and the worlds. *)
Theorem c50_control {A E E' V V' W W' I I'} (items : list (grammar_item A)) gp pr (inj : rval -> V) (inj' : rval -> V')
  (usem : A -> list (string * bval V) -> W -> option (V * W)) (usem' : A -> list (string * bval V') -> W' -> option (V' * W'))
  (next : I -> option (rval + E) * I) (next' : I' -> option (rval + E') * I') it it' w w' o evs l' it'' :
  parser_of items gp pr -> never_panics items usem -> never_panics items usem' ->
  returns_with gp inj usem next pr it w o evs -> answers next' it' l' it'' -> Forall2 (same_classes items) (nexts_of evs) l' ->
  exists o' evs', returns_with gp inj' usem' next' pr it' w' o' evs' /\ oc_iter o' = it'' /\
    result_related (fun _ _ => True) (fun _ _ => True) (oc_result o) (oc_result o') /\
    calls_of evs = calls_of evs' /\ Forall2 (same_classes items) (nexts_of evs) (nexts_of evs') /\ List.length evs = List.length evs'.
Proof.
  intros Hp N1 N2 Hr Ha Hl.
  destruct (related_returns items gp pr Hp inj inj' usem usem' next next' (fun _ _ _ => True) (fun _ _ _ => True) (fun _ _ => True) (fun _ _ => True))
    with (RT := fun tok tok' => token_class (token_entries items) tok = token_class (token_entries items) tok')
      (it := it) (it' := it') (w := w) (w' := w') (o := o) (evs := evs) (l' := l') (it'' := it'')
    as (o' & evs' & H1 & H2 & _ & H4 & H5); auto.
  - intros N q vs vs' w0 w0' HN Hq _ _. pose proof (N1 N q vs w0 HN Hq) as P1. pose proof (N2 N q vs' w0' HN Hq) as P2.
    destruct (usem (action_expr (ap_action q)) vs w0); [|congruence]. destruct (usem' (action_expr (ap_action q)) vs' w0'); [|congruence]. cbn. auto.
  - intros tok tok' H. split; auto.
  - exists o', evs'. split; auto. split; auto. split; auto. clear - H5. split; [|split].
    + induction H5 as [|e e' l l' He Hl IH]; [reflexivity|]. destruct e as [r|a], e' as [r'|a']; cbn in He |- *; try contradiction; auto. subst; f_equal; auto.
    + induction H5 as [|e e' l l' He Hl IH]; [constructor|]. destruct e as [r|a], e' as [r'|a']; cbn in He |- *; try contradiction; auto; try (constructor; auto).
    + induction H5 as [|e e' l l' He Hl IH]; [reflexivity|]. cbn. auto.
Qed.

(** ** Concrete cases *)

(** C48: running the parser of test_grammar_6 with truth values for numbers, [xor] for [+], [and] for [*]
    and a counter for the list of actions run computes the parity of the result of every input, and
    the number of actions. *)
Definition parity (v : rval) : bool := Nat.odd (num v).
Definition parity_bval (b : bval rval) : bval bool := match b with BTok fs => BTok (map parity fs) | BVal v => BVal (parity v) end.
Definition parity_val (b : list (string * bval bool)) (x : string) : bool :=
  match bget x b with Some (BVal v) => v | Some (BTok [v]) => v | _ => false end.
Definition parity_sem (e : string) (b : list (string * bval bool)) (n : nat) : option (bool * nat) :=
  match e with
  | "e + t" => Some (xorb (parity_val b "e") (parity_val b "t"), S n)
  | "t * f" => Some (andb (parity_val b "t") (parity_val b "f"), S n)
  | x => match bget x b with Some _ => Some (parity_val b x, S n) | None => None end
  end.
Lemma parity_bget x b : bget x (map (fun '(y, v) => (y, parity_bval v)) b) = option_map parity_bval (bget x b).
Proof. induction b as [|[y v] b IH]; cbn; [reflexivity|]. destruct (String.eqb x y); auto. Qed.
Lemma parity_val_of x b : parity_val (map (fun '(y, v) => (y, parity_bval v)) b) x = Nat.odd (num (val_of b x)).
Proof.
  unfold parity_val, val_of. rewrite parity_bget. destruct (bget x b) as [[fs|v]|]; cbn; [|reflexivity..].
  destruct fs as [|v [|? ?]]; reflexivity.
Qed.
Notation parity_R := (fun (_ : ty) v b => b = parity v).
Notation parity_RF := (fun (_ : string) fs fs' => fs' = map parity fs).
Lemma parity_scope items ss vs vs' : scope_related (A := string) items parity_R parity_RF ss vs vs' -> vs' = map (fun '(y, v) => (y, parity_bval v)) vs.
Proof.
  assert (Hs : forall s b b', symbol_related (A := string) items parity_R parity_RF s b b' -> b' = parity_bval b).
  { induction 1; cbn; subst; auto. }
  induction 1 as [|s ss vs vs' _ _ IH|s x b b' ss vs vs' _ Hb _ IH]; cbn; [reflexivity|auto|]. rewrite (Hs _ _ _ Hb), IH. reflexivity.
Qed.
Lemma parity_actions : actions_related arith parity_R parity_RF (fun w n => n = List.length w) sem parity_sem.
Proof.
  intros N q vs vs' w n HN Hq Hs ->. apply parity_scope in Hs. subst vs'. cbn in HN.
  assert (Hvar : forall x, option_related (fun a b => parity_R "u64" (fst a) (fst b) /\ snd b = List.length (snd a))
    (match match bget x vs with Some _ => Some (val_of vs x) | None => None end with Some v => Some (v, x :: w) | None => None end)
    (match bget x (map (fun '(y, v) => (y, parity_bval v)) vs) with Some _ => Some (parity_val (map (fun '(y, v) => (y, parity_bval v)) vs) x, S (List.length w)) | None => None end)).
  { intro x. rewrite parity_bget, parity_val_of. destruct (bget x vs); cbn; auto. }
  destruct HN as [<-|[<-|[<-|[<-|[]]]]]; cbn in Hq; [destruct Hq as [<-|[]]|destruct Hq as [<-|[<-|[]]]..]; cbn [action_expr ap_action an_type];
    try (apply Hvar).
  - cbn. rewrite !parity_val_of. unfold parity. cbn [num]. rewrite Nat.odd_add. auto.
  - cbn. rewrite !parity_val_of. unfold parity. cbn [num]. rewrite Nat.odd_mul. auto.
Qed.
Example case_parity l o evs : returns_with arith_gp (fun v => v) sem vec_next arith_E l [] o evs ->
  exists o' evs', returns_with arith_gp parity parity_sem vec_next arith_E l 0 o' evs' /\
    result_related (fun v b => b = Nat.odd (num v)) eq (oc_result o) (oc_result o') /\
    oc_world o' = List.length (oc_world o) /\ oc_iter o' = oc_iter o.
Proof.
  intro H.
  destruct (c48_related arith arith_gp arith_E (fun v => v) parity sem parity_sem vec_next vec_next parity_R parity_RF
    (fun w n => n = List.length w) eq l l [] 0 o evs (nexts_of evs) (oc_iter o) arith_parser parity_actions eq_refl H (c49_responses _ _ _ _ _ _ _ _ _ H))
    as (o' & evs' & H1 & H2 & H3 & H4 & _).
  - apply Forall2_diag. intros [[tok|e]|] _; cbn; auto. split; auto. intros s _. rewrite map_map. reflexivity.
  - exists o', evs'. auto.
Qed.
Example case_parity_26 : exists o evs, returns_with arith_gp (fun v => v) sem vec_next arith_E
    [int 4; STAR; int 1; STAR; int 5; PLUS; int 2; STAR; int 3] [] o evs /\ oc_result o = POk (RVOther 26).
Proof. eexists; eexists. split; [exists 300; split; vm_compute; reflexivity|reflexivity]. Qed.

(** C48: the [Vec<Expr>] grammar of tests/tests.rs has two types; its action [es.insert(0, e)] only makes
    sense if [es] is a [Vec<Expr>] and [e] an [Expr]. *)
Definition is_expr (v : rval) : Prop := v = RVUnit "Id" \/ v = RVUnit "IdA".
Definition expr_type (t : ty) (v : rval) : Prop :=
  if String.eqb t "Vec<Expr>" then exists l, v = RVTuple l /\ Forall is_expr l else is_expr v.
Lemma exprs_typed : actions_typed (ordering [id_a; id_any]) expr_type (fun _ _ => True) sem.
Proof.
  intros N q vs w v w' HN Hq Hs Hu. cbn in HN. destruct HN as [<-|[<-|[]]]; cbn in Hq; destruct Hq as [<-|[<-|[]]]; cbn in Hs, Hu; unfold expr_type; cbn.
  - inversion Hs as [|s ss vs1 Hb|s x b ss vs1 Hb Hsy Hs1]; subst; cbn in Hb; [discriminate|]. injection Hb as <-.
    inversion Hs1 as [|s ss vs2 Hb|s x b' ss vs2 Hb Hsy2 Hs2]; subst; cbn in Hb; [discriminate|]. injection Hb as <-. inversion Hs2; subst.
    inversion Hsy as [? ? ? Hs0| |]; subst. inversion Hs0 as [| |M y HM Hy Hn]; subst. cbn in HM. destruct HM as [<-|[<-|[]]]; [discriminate|].
    inversion Hsy2 as [? ? ? Hs0'| |]; subst. inversion Hs0' as [| |M y' HM Hy' Hn']; subst. cbn in HM. destruct HM as [<-|[<-|[]]]; [|discriminate].
    unfold expr_type in Hy, Hy'. cbn in Hy, Hy'. destruct Hy' as (l & -> & Hl). cbn in Hu. injection Hu as <- _. exists (y :: l). auto.
  - injection Hu as <- _. exists []. auto.
  - injection Hu as <- _. left; reflexivity.
  - injection Hu as <- _. right; reflexivity.
Qed.
Definition ordering_items : list (grammar_item string) := Eval cbn in ordering [id_a; id_any].
Definition ordering_gp : generated (lexpr string) := Eval vm_compute in module_of ordering_items.
Definition ordering_Exprs : parser_struct := Eval vm_compute in parser_named ordering_gp "Exprs".
Lemma ordering_parser : parser_of ordering_items ordering_gp ordering_Exprs. Proof. prove_parser_of. Qed.
(** Whatever the tokens, the [Vec<Expr>] parser returns a vector of expressions, and its actions might as
    well launch missiles on other values. *)
Definition missiles (e : string) (b : list (string * bval rval)) (w : list string) : option (rval * list string) :=
  if String.eqb e "{ es.insert(0, e); es }" then
    match bget "es" b, bget "e" b with
    | Some (BVal (RVTuple l)), Some (BVal (RVUnit c)) => Some (RVTuple (RVUnit c :: l), e :: w)
    | _, _ => Some (RVOther 42, ["launch"])
    end
  else sem e b w.
Lemma missiles_agree : agree_on_typed ordering_items expr_type (fun _ _ => True) sem missiles.
Proof.
  intros N q vs w HN Hq Hs. cbn in HN. destruct HN as [<-|[<-|[]]]; cbn in Hq; destruct Hq as [<-|[<-|[]]]; cbn in Hs; try reflexivity.
  inversion Hs as [|s ss vs1 Hb|s x b ss vs1 Hb Hsy Hs1]; subst; cbn in Hb; [discriminate|]. injection Hb as <-.
  inversion Hs1 as [|s ss vs2 Hb|s x b' ss vs2 Hb Hsy2 Hs2]; subst; cbn in Hb; [discriminate|]. injection Hb as <-. inversion Hs2; subst.
  inversion Hsy as [? ? ? Hs0| |]; subst. inversion Hs0 as [| |M y HM Hy Hn]; subst. cbn in HM. destruct HM as [<-|[<-|[]]]; [discriminate|].
  inversion Hsy2 as [? ? ? Hs0'| |]; subst. inversion Hs0' as [| |M y' HM Hy' Hn']; subst. cbn in HM. destruct HM as [<-|[<-|[]]]; [|discriminate].
  unfold expr_type in Hy, Hy'. cbn in Hy, Hy'. destruct Hy' as (l & -> & Hl). destruct Hy as [->| ->]; reflexivity.
Qed.
Example case_typed l o evs : returns_with ordering_gp (fun v => v) sem vec_next ordering_Exprs l [] o evs ->
  (forall v, oc_result o = POk v -> exists es, v = RVTuple es /\ Forall is_expr es) /\
  returns_with ordering_gp (fun v => v) missiles vec_next ordering_Exprs l [] o evs.
Proof.
  intro H. destruct (c48_typed ordering_items ordering_gp ordering_Exprs (fun v => v) sem vec_next expr_type (fun _ _ => True) l [] o evs
    ordering_parser exprs_typed H) as (H1 & H2); [intros tok _ s _; exact Logic.I|]. split; [exact H1|apply H2; exact missiles_agree].
Qed.
Example case_typed_run : exists o evs, returns_with ordering_gp (fun v => v) sem vec_next ordering_Exprs [idn "a"; idn "b"] [] o evs /\
  oc_result o = POk (RVTuple [RVUnit "IdA"; RVUnit "Id"]).
Proof. eexists; eexists. split; [exists 300; split; vm_compute; reflexivity|reflexivity]. Qed.

(** C49: a countdown instead of a vector. *)
Definition countdown (n : nat) : option (rval + string) * nat :=
  match n with
  | 0 => (None, 0)
  | S m => (Some (if Nat.even m then int m else PLUS), m)
  end.
Example case_countdown : exists o evs,
  returns_with arith_gp (fun v => v) sem vec_next arith_E [int 2; PLUS; int 0] [] o evs /\ oc_result o = POk (RVOther 2) /\
  answers countdown 3 (nexts_of evs) 0 /\
  returns_with arith_gp (fun v => v) sem countdown arith_E 3 [] {| oc_result := POk (RVOther 2); oc_iter := 0; oc_world := oc_world o |} evs.
Proof.
  eexists. exists (events_vec arith_gp arith_E [int 2; PLUS; int 0]).
  assert (H : answers countdown 3 (nexts_of (events_vec arith_gp arith_E [int 2; PLUS; int 0])) 0) by (vm_compute; repeat (econstructor; [reflexivity|]); constructor).
  split; [exists 300; split; vm_compute; reflexivity|]. split; [reflexivity|]. split; [exact H|].
  refine (c49_same_responses arith arith_gp arith_E (fun v => v) sem vec_next countdown [int 2; PLUS; int 0] 3 []
    {| oc_result := POk (RVOther 2); oc_iter := []; oc_world := ["e"; "e + t"; "f"; "i"; "t"; "f"; "i"] |} _ 0 arith_parser _ H).
  exists 300. split; vm_compute; reflexivity.
Qed.

(** C50: the same calls for different numbers. *)
Lemma total_never_panics : never_panics arith (fun (_ : string) (_ : list (string * bval unit)) (w : nat) => Some (tt, S w)).
Proof. intros N q vs w _ _ H. discriminate. Qed.
Example case_control : exists o evs evs',
  returns_with arith_gp (fun _ => tt) (fun _ _ w => Some (tt, S w)) vec_next arith_E [int 2; PLUS; int 0] 0 o evs /\ oc_result o = POk tt /\
  Forall2 (same_classes arith) (nexts_of evs) (nexts_of evs') /\
  evs' = events_vec arith_gp arith_E [int 7; PLUS; int 9] /\
  exists o', returns_with arith_gp (fun _ => tt) (fun _ _ w => Some (tt, S w)) vec_next arith_E [int 7; PLUS; int 9] 0 o' evs' /\ oc_result o' = POk tt.
Proof.
  eexists. exists (events_vec arith_gp arith_E [int 2; PLUS; int 0]). exists (events_vec arith_gp arith_E [int 7; PLUS; int 9]).
  split; [exists 300; split; vm_compute; reflexivity|]. split; [reflexivity|]. split; [vm_compute; repeat constructor|]. split; [reflexivity|].
  eexists. split; [exists 300; split; vm_compute; reflexivity|reflexivity].
Qed.
