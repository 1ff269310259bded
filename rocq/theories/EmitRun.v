(** * EmitRun: the functions of the emitted module compute what the runtime model says *)
From Coq Require Import NArith Ascii.
From Verif Require Import NamesProofs PropertiesHygiene.
From Verif Require Export EmitModule.
Local Open Scope string_scope. Local Open Scope list_scope.

(** What the meaning of names and the types in the module need. *)
Record resolvable {A} (te : token_enum) (g : grammar (lexpr A)) (gp : generated (lexpr A)) : Prop := {
  ev_len : List.length (fn_names g) = List.length (gp_sem_actions gp);
  ev_values : NoDup (value_items te g gp);
  ev_types : NoDup (type_items gp);
  ev_prelude : forall x, In x outer_values -> ~ In x (value_items te g gp);
  ev_locals : forall x, In x template_locals -> is_constant (emit te g gp) x = false;
  ev_parts : forall c i, In c (te_conversions te) -> i < List.length (pattern_types (cv_to c)) -> is_constant (emit te g gp) (field_ident i) = false;
  ev_binders : forall f m x e, In f (gp_sem_actions gp) -> In (PopBind m x e) (sf_pops f) -> is_constant (emit te g gp) x = false;
  ev_action_rows : forall row, In row (gp_action gp) -> List.length row = gp_n_terminals gp + 1;
  ev_goto_rows : forall row, In row (gp_goto gp) -> List.length row = List.length (g_nts g);
  ev_expected : List.length (gp_expected gp) = List.length (gp_action gp);
  ev_strs : List.length (gp_terminal_strs gp) = gp_n_terminals gp + 1;
  ev_action_fit : forall row r, In row (gp_action gp) -> In (Some r) row ->
    match r with
    | RShift s => fits U32 s = true
    | RReduce nt k idx => fits U16 nt = true /\ fits U16 k = true /\ fits U16 idx = true
    | RAccept => True
    end;
  ev_goto_fit : forall row s, In row (gp_goto gp) -> In (Some s) row -> fits U32 s = true;
  ev_variants : forall f, In f (gp_sem_actions gp) -> sf_variant f < n_variants g;
  ev_variant_types : forall f, In f (gp_sem_actions gp) -> exists t, declared_as (non_terminal_variant_name (sf_variant f)) (result_enum te g) = [[t]];
  ev_methods : forall f m x e, In f (gp_sem_actions gp) -> In (PopBind m x e) (sf_pops f) ->
    match e with
    | ExToken i => exists c, nth_error (te_conversions te) i = Some c
    | ExNonTerminal v => v < n_variants g /\ exists t, declared_as (non_terminal_variant_name v) (result_enum te g) = [[t]]
    end;
  ev_entry : forall f x, In f (gp_sem_actions gp) -> sf_action f = EVar x -> exists m v, sf_pops f = [PopBind m x (ExNonTerminal v)];
  ev_parsers : forall pr, In pr (gp_parsers gp) -> fits U32 (pr_init_state pr) = true /\ pr_extract_variant pr < n_variants g /\
    exists t, declared_as (non_terminal_variant_name (pr_extract_variant pr)) (result_enum te g) = [[t]];
  ev_conv : gp_conversions gp = te_conversions te
}.
(** What its evaluation needs. *)
Record evaluable {A} (te : token_enum) (g : grammar (lexpr A)) (gp : generated (lexpr A)) : Prop := {
  ev_names :> resolvable te g gp;
  ev_value_stack : forall f m x e, In f (gp_sem_actions gp) -> In (PopBind m x e) (sf_pops f) -> x <> "value_stack"
}.

(** ** Lists of constants *)
Lemma const_list_map {A E V X} (cev : expr A -> option (val E V)) (f : X -> expr A) (h : X -> val E V) (l : list X) :
  (forall x, In x l -> cev (f x) = Some (h x)) -> const_list cev (map f l) = Some (map h l).
Proof.
  induction l as [|x l IH]; intro H; cbn; [reflexivity|]. rewrite (H x (or_introl eq_refl)), IH; auto. intros y Hy. apply H. right; auto.
Qed.

(** Compare literals. *)
Ltac strs := repeat match goal with
  | |- context [String.eqb ?a ?b] =>
      let r := eval vm_compute in (String.eqb a b) in
      match r with true => change (String.eqb a b) with true | false => change (String.eqb a b) with false end
  end.

Lemma has_dims_cons {E V} d ds (l : list (val E V)) : has_dims (d :: ds) (VArr l) = Nat.eqb (List.length l) d && forallb (has_dims ds) l.
Proof. reflexivity. Qed.
Lemma has_no_dims {E V} (l : list (val E V)) : forallb (has_dims []) l = true.
Proof. apply forallb_forall. reflexivity. Qed.

Section Run.
Context {A E V St : Type}.
Variables (te : token_enum) (g : grammar (lexpr A)) (gp : generated (lexpr A)).
Hypothesis Hev : evaluable te g gp.
Variable U : user A E V St.
Notation M := (emit te g gp).
Notation val := (val E V).

(** ** Statics *)
Definition action_val (a : rt_action) : val :=
  match a with
  | RShift s => VRec "LRAction" "Shift" [("next_state", VInt s)]
  | RReduce nt n act => VRec "LRAction" "Reduce" [("non_terminal_idx", VInt nt); ("n_symbols", VInt n); ("semantic_action_idx", VInt act)]
  | RAccept => VCon "LRAction" "Accept" []
  end.
Definition action_rows : list val := map (fun row => VArr (map (fun a => some_val (option_map action_val a)) row)) (gp_action gp).
Definition goto_rows : list val := map (fun row => VArr (map (fun a => some_val (option_map VInt a)) row)) (gp_goto gp).

Let Hl := ev_len _ _ _ Hev. Let Hv := ev_values _ _ _ Hev. Let Ht := ev_types _ _ _ Hev. Let Hp := ev_prelude _ _ _ Hev.

Lemma const_some (e : expr A) (v : val) : const_eval M e = Some v -> const_eval M (XCall (XId "Some") [e]) = Some (some_val (Some v)).
Proof.
  intro H. cbn [const_eval const_list]. rewrite (path_prelude te g gp Hl Hp) by (cbn; auto). cbn [prelude_ctor String.eqb].
  change (prelude_ctor "Some") with (Some ("Option", ShTuple ["T"])). rewrite H. unfold construct. rewrite (ctor_some te g gp Hl Hp). reflexivity.
Qed.
Lemma const_none : const_eval (E := E) (V := V) M (XId "None") = Some (some_val None).
Proof. cbn [const_eval]. rewrite (path_prelude te g gp Hl Hp) by (cbn; auto). reflexivity. Qed.
Lemma const_option {X} (f : X -> expr A) (h : X -> val) o : (forall x, o = Some x -> const_eval M (f x) = Some (h x)) ->
  const_eval M (e_option f o) = Some (some_val (option_map h o)).
Proof. destruct o as [x|]; intro H; [apply const_some; auto|apply const_none]. Qed.
Lemma const_action row r : In row (gp_action gp) -> In (Some r) row -> const_eval M (e_action r) = Some (action_val r).
Proof.
  intros H1 H2. pose proof (ev_action_fit _ _ _ Hev row r H1 H2) as Hf. destruct r as [s|nt n act|]; cbn [e_action const_eval const_fields].
  - rewrite Hf. unfold construct_fields. rewrite (ctor_shift te g gp Ht). reflexivity.
  - destruct Hf as (F1 & F2 & F3). rewrite F1, F2, F3. unfold construct_fields. rewrite (ctor_reduce te g gp Ht). reflexivity.
  - apply (path_accept te g gp Ht).
Qed.
Lemma static_action : exists d e, declared_as "ACTION" (vdefs M) = [DStatic d e] /\ static_val M d e = Some (VArr action_rows).
Proof.
  do 2 eexists. split; [exact (v_static_action te g gp Hl Hv)|]. unfold static_val. cbn [const_eval].
  rewrite (const_list_map _ _ (fun row => VArr (map (fun a => some_val (option_map action_val a)) row))).
  - cbn [option_map]. rewrite has_dims_cons, map_length, Nat.eqb_refl. cbn [andb]. fold action_rows.
    assert (Hd : forallb (has_dims [gp_n_terminals gp + 1]) action_rows = true); [|rewrite Hd; reflexivity].
    apply forallb_forall. intros v Hin. unfold action_rows in Hin. apply in_map_iff in Hin. destruct Hin as (row & <- & Hin). rewrite has_dims_cons, map_length, (ev_action_rows _ _ _ Hev row Hin), Nat.eqb_refl. apply has_no_dims.
  - intros row Hin. cbn [const_eval]. erewrite const_list_map; [reflexivity|]. intros a Ha. apply const_option. intros r ->. eapply const_action; eauto.
Qed.
Lemma static_goto : exists d e, declared_as "GOTO" (vdefs M) = [DStatic d e] /\ static_val M d e = Some (VArr goto_rows).
Proof.
  do 2 eexists. split; [exact (v_static_goto te g gp Hl Hv)|]. unfold static_val. cbn [const_eval].
  rewrite (const_list_map _ _ (fun row => VArr (map (fun a => some_val (option_map VInt a)) row))).
  - cbn [option_map]. rewrite has_dims_cons, map_length, Nat.eqb_refl. cbn [andb]. fold goto_rows.
    assert (Hd : forallb (has_dims [List.length (g_nts g)]) goto_rows = true); [|rewrite Hd; reflexivity].
    apply forallb_forall. intros v Hin. unfold goto_rows in Hin. apply in_map_iff in Hin. destruct Hin as (row & <- & Hin). rewrite has_dims_cons, map_length, (ev_goto_rows _ _ _ Hev row Hin), Nat.eqb_refl. apply has_no_dims.
  - intros row Hin. cbn [const_eval]. erewrite const_list_map; [reflexivity|]. intros a Ha. apply const_option. intros r ->. cbn [const_eval].
    rewrite (ev_goto_fit _ _ _ Hev row r Hin Ha). reflexivity.
Qed.
Lemma static_semantic : exists d e, declared_as "SEMANTIC_ACTIONS" (vdefs M) = [DStatic d e] /\
  static_val M d e = Some (VArr (map (VFn (E := E) (V := V) "") (fn_names g))).
Proof.
  do 2 eexists. split; [exact (v_semantic te g gp Hl Hv)|]. unfold static_val. cbn [const_eval].
  rewrite (const_list_map _ _ (VFn "")).
  - cbn [option_map]. rewrite has_dims_cons, map_length, Nat.eqb_refl, has_no_dims. reflexivity.
  - intros name Hin. apply In_nth_error in Hin. destruct Hin as (k & Hk).
    assert (Hlt : k < List.length (gp_sem_actions gp)) by (rewrite <- Hl; apply nth_error_Some; congruence).
    destruct (nth_error (gp_sem_actions gp) k) as [f|] eqn:Ef; [|apply nth_error_None in Ef; lia].
    cbn [const_eval]. exact (path_fn te g gp _ _ _ _ (v_action te g gp Hl Hv k name f Hk Ef)).
Qed.
Lemma static_strings l d : List.length l = d -> static_val (E := E) (V := V) M [d] (XArray (map XStr l)) = Some (VArr (map VStr l)).
Proof.
  intro H. unfold static_val. cbn [const_eval]. rewrite (const_list_map _ _ VStr) by reflexivity. cbn [option_map].
  rewrite has_dims_cons, map_length, H, Nat.eqb_refl, has_no_dims. reflexivity.
Qed.
Lemma static_expected : exists d e, declared_as "EXPECTED_TERMINALS" (vdefs M) = [DStatic d e] /\ static_val (E := E) (V := V) M d e = Some (VArr (map VStr (gp_expected gp))).
Proof. do 2 eexists. split; [exact (v_expected te g gp Hl Hv)|]. apply static_strings. exact (ev_expected _ _ _ Hev). Qed.
Lemma static_strs : exists d e, declared_as "TERMINAL_STRS" (vdefs M) = [DStatic d e] /\ static_val (E := E) (V := V) M d e = Some (VArr (map VStr (gp_terminal_strs gp))).
Proof. do 2 eexists. split; [exact (v_strs te g gp Hl Hv)|]. apply static_strings. exact (ev_strs _ _ _ Hev). Qed.

(** ** Methods *)
Definition sval_val (v : sem_val V) : val :=
  match v with
  | VToken i fs => VCon "SemanticActionResult" (token_variant_name i) (map VUser fs)
  | VNonTerminal k x => VCon "SemanticActionResult" (non_terminal_variant_name k) [VUser x]
  end.
(** A token on the value stack has the parts of its pattern. *)
Definition sval_ok (v : sem_val V) : Prop :=
  match v with
  | VToken i fs => exists c, nth_error (te_conversions te) i = Some c /\ List.length fs = List.length (pattern_types (cv_to c))
  | VNonTerminal _ _ => True
  end.
Definition method_out (o : option (bval V)) (w : val) (u : St) : cout E V St :=
  match o with Some b => CVal (bval_val b) [w] u | None => CPanic KUnreachable u end.

Lemma no_bind x : is_constant M x = false -> forall w : val, bindings M [(x, w)] = MYes [(x, w)].
Proof. intros H w. unfold bindings. cbn [existsb]. rewrite H. reflexivity. Qed.

Lemma existsb_none {X} (f : X -> bool) l : (forall x, In x l -> f x = false) -> existsb f l = false.
Proof. induction l as [|x l IH]; intro H; cbn; [reflexivity|]. rewrite (H x (or_introl eq_refl)), IH; auto. intros y Hy. apply H. right; auto. Qed.

Lemma call_non_terminal_method n d k w u : k < n_variants g -> (exists t, declared_as (non_terminal_variant_name k) (result_enum te g) = [[t]]) ->
  sval_ok w -> call_fn M U n (S d) "SemanticActionResult" (non_terminal_method_name k) [sval_val w] u =
  method_out (extract (ExNonTerminal k) w) (sval_val w) u.
Proof.
  intros Hk (t & Hd) Hw. cbn [call_fn]. rewrite (fn_result te g gp Ht _ _ (m_non_terminal te g k Hk)).
  cbn [e_non_terminal_method snd fd_params fd_body List.length Nat.eqb existsb]. rewrite (ev_locals _ _ _ Hev "self") by (cbn; auto 30).
  cbn [orb negb andb combine rev app eval lget rs_locals]. strs. cbn match. cbn [bind eval_arms match_pat].
  rewrite (ctor_result te g gp Ht "SemanticActionResult" "Self" _ _ eq_refl eq_refl Hd).
  destruct w as [i fs|k' x]; cbn [sval_val strip fst snd].
  - strs. cbn [List.length Nat.eqb andb]. reflexivity.
  - strs. cbn [List.length Nat.eqb andb].
    cbn [extract]. destruct (Nat.eqb_spec k k') as [<-|Hne].
    + rewrite String.eqb_refl. cbn [map match_pats match_pat reref]. rewrite no_bind by (apply (ev_locals _ _ _ Hev); cbn; auto 30).
      reflexivity.
    + assert (Hs : String.eqb (non_terminal_variant_name k) (non_terminal_variant_name k') = false) by (apply String.eqb_neq; intro E1; apply non_terminal_variant_inj in E1; auto).
      rewrite Hs. reflexivity.
Qed.
(** Variables bound by a pattern. *)
Lemma lget_app x (l1 l2 : list (string * val)) : lget x (l1 ++ l2) = match lget x l1 with Some v => Some v | None => lget x l2 end.
Proof. induction l1 as [|[y v] l1 IH]; cbn; [reflexivity|]. destruct (String.eqb x y); auto. Qed.
Lemma lget_none x (l : list (string * val)) : ~ In x (map fst l) -> lget x l = None.
Proof. induction l as [|[y v] l IH]; cbn; intro H; [reflexivity|]. destruct (String.eqb_spec x y) as [->|_]; [exfalso; auto|auto]. Qed.
Lemma lget_In x v (l : list (string * val)) : NoDup (map fst l) -> In (x, v) l -> lget x l = Some v.
Proof.
  induction l as [|[y w] l IH]; cbn; intros Hnd Hin; [contradiction|]. inversion Hnd as [|? ? H1 H2]; subst. destruct Hin as [Hin|Hin].
  - injection Hin as -> ->. rewrite String.eqb_refl. reflexivity.
  - destruct (String.eqb_spec x y) as [->|_]; [exfalso; apply H1; exact (in_map fst _ _ Hin)|auto].
Qed.
Lemma NoDup_rev_fst (l : list (string * val)) : NoDup (map fst l) -> NoDup (map fst (rev l)).
Proof. rewrite map_rev. intro H. apply NoDup_rev. exact H. Qed.
Lemma eval_idents n call self (b : list (string * val)) l u : NoDup (map fst b) ->
  eval_list (eval M U n call self) (map XId (map fst b)) {| rs_locals := rev b ++ l; rs_user := u |} =
  OVals (map snd b) {| rs_locals := rev b ++ l; rs_user := u |}.
Proof.
  intro Hnd. set (s := {| rs_locals := rev b ++ l; rs_user := u |}).
  assert (H : forall b', (forall x v, In (x, v) b' -> In (x, v) b) -> eval_list (eval M U n call self) (map XId (map fst b')) s = OVals (map snd b') s).
  { induction b' as [|[x v] b' IH]; intro H; [reflexivity|]. cbn [map fst snd eval_list eval].
    assert (Hg : lget x (rs_locals s) = Some v).
    { cbn [s rs_locals]. rewrite lget_app. rewrite (lget_In x v); [reflexivity|apply NoDup_rev_fst; exact Hnd|]. apply -> in_rev. apply H. left; reflexivity. }
    rewrite Hg, IH; [reflexivity|]. intros y w Hy. apply H. right; auto. }
  apply H. auto.
Qed.
Lemma match_binds self ids : (forall x, In x ids -> is_constant M x = false) -> forall vs, List.length vs = List.length ids ->
  match_pats (match_pat M U self) (map PBind ids) vs = MYes (combine ids vs).
Proof.
  induction ids as [|x ids IH]; intros H [|v vs] Hlen; try discriminate; [reflexivity|]. cbn [map match_pats match_pat combine].
  rewrite no_bind by (apply H; left; reflexivity). rewrite IH; [reflexivity| |cbn in Hlen; lia]. intros y Hy. apply H. right; auto.
Qed.
Lemma leave_binds (b l : list (string * val)) (v : val) (u : St) : leave (List.length b) (OVal v {| rs_locals := rev b ++ l; rs_user := u |}) = OVal v {| rs_locals := l; rs_user := u |}.
Proof.
  cbn [leave rs_locals]. unfold with_locals. cbn [rs_user]. rewrite <- (rev_length b), skipn_app, skipn_all, Nat.sub_diag. reflexivity.
Qed.

Lemma idents_nonconstant c i : In c (te_conversions te) -> In i (idents 0 (List.length (pattern_types (cv_to c)))) -> is_constant M i = false.
Proof.
  intros Hc Hin. unfold idents in Hin. apply in_map_iff in Hin. destruct Hin as (k & <- & Hk). apply in_seq in Hk. eapply (ev_parts _ _ _ Hev); eauto. lia.
Qed.

Lemma map_snd_combine {X Y} (l : list X) : forall l' : list Y, List.length l = List.length l' -> map snd (combine l l') = l'.
Proof. induction l as [|a l IH]; intros [|b l'] H; cbn in *; try discriminate; auto. rewrite IH by lia. reflexivity. Qed.

Lemma call_token_method n d i c w u : nth_error (te_conversions te) i = Some c ->
  sval_ok w -> call_fn M U n (S d) "SemanticActionResult" (token_method_name i) [sval_val w] u =
  method_out (extract (ExToken i) w) (sval_val w) u.
Proof.
  intros Hc Hw. cbn [call_fn]. rewrite (fn_result te g gp Ht _ _ (m_token te g i c Hc)).
  cbn [e_token_method snd fd_params fd_body List.length Nat.eqb existsb]. rewrite (ev_locals _ _ _ Hev "self") by (cbn; auto 30).
  cbn [orb negb andb combine rev app eval lget rs_locals]. strs. cbn match. cbn [bind eval_arms match_pat].
  rewrite (ctor_result te g gp Ht "SemanticActionResult" "Self" _ _ eq_refl eq_refl (proj1 (token_variant_declared te g i c Hc))).
  change (map field_ident (seq 0 (List.length (pattern_types (cv_to c))))) with (idents 0 (List.length (pattern_types (cv_to c)))).
  destruct w as [i' fs|k x]; cbn [sval_val strip fst snd]; strs.
  - rewrite map_length, idents_length, Nat.eqb_refl. cbn [andb extract]. destruct (Nat.eqb_spec i i') as [<-|Hne].
    + rewrite String.eqb_refl. destruct Hw as (c' & Hc' & Hlen). rewrite Hc in Hc'. injection Hc' as <-.
      set (ids := idents 0 (List.length (pattern_types (cv_to c)))) in *.
      assert (Hids : List.length ids = List.length (pattern_types (cv_to c))) by apply idents_length.
      assert (Hm : List.length (map (reref (E := E) false) (map VUser fs)) = List.length ids) by (rewrite !map_length; lia).
      rewrite match_binds; [|intros x Hx; eapply idents_nonconstant; [eapply nth_error_In; exact Hc|exact Hx]|exact Hm].
      assert (Hr : map (reref (E := E) false) (map VUser fs) = map (VUser (E := E)) fs) by (clear; induction fs as [|v fs IH]; cbn; [reflexivity|rewrite IH; reflexivity]).
      rewrite Hr in *. set (b := combine ids (map VUser fs)).
      assert (Hfst : map fst b = ids) by (apply map_fst_combine; lia). assert (Hsnd : map snd b = map VUser fs) by (apply map_snd_combine; lia).
      unfold with_locals. cbn [rs_locals rs_user].
      assert (He : eval M U n (call_fn M U n d) "SemanticActionResult" (e_tuple (map XId ids)) {| rs_locals := rev b ++ [("self", VCon "SemanticActionResult" (token_variant_name i) (map VUser fs))]; rs_user := u |} =
        OVal (bval_val (BTok fs)) {| rs_locals := rev b ++ [("self", VCon "SemanticActionResult" (token_variant_name i) (map VUser fs))]; rs_user := u |}).
      { rewrite <- Hfst. pose proof (eval_idents n (call_fn M U n d) "SemanticActionResult" b [("self", VCon "SemanticActionResult" (token_variant_name i) (map VUser fs))] u) as Hi.
        rewrite Hfst in Hi. specialize (Hi (idents_NoDup _ _)). rewrite Hsnd in Hi. rewrite Hfst.
        revert Hi. unfold bval_val. destruct (map XId ids) as [|e [|e' es]] eqn:Ees; cbn [e_tuple].
        - intro Hi. cbn [eval]. rewrite Hi. cbn [bind_outs]. assert (Hz : List.length fs = 0) by (rewrite Hlen, <- Hids, <- (map_length (XId (A := A))), Ees; reflexivity).
          destruct fs; [reflexivity|discriminate].
        - cbn [eval_list]. assert (Hz : List.length fs = 1) by (rewrite Hlen, <- Hids, <- (map_length (XId (A := A))), Ees; reflexivity).
          destruct fs as [|f1 [|f2 fs]]; try discriminate. cbn [map]. destruct (eval M U n _ _ e _) as [v1 s1| | | | |]; intro Hi; try discriminate. injection Hi as -> ->. reflexivity.
        - intro Hi. cbn [eval]. rewrite Hi. cbn [bind_outs]. assert (Hz : List.length fs = S (S (List.length es))) by (rewrite Hlen, <- Hids, <- (map_length (XId (A := A))), Ees; reflexivity).
          destruct fs as [|f1 [|f2 fs]]; try discriminate. reflexivity. }
      rewrite He. rewrite leave_binds. cbn [rs_user]. reflexivity.
    + assert (Hs : String.eqb (token_variant_name i) (token_variant_name i') = false) by (apply String.eqb_neq; intro E1; apply token_variant_inj in E1; auto).
      rewrite Hs. reflexivity.
  - rewrite map_length, idents_length, Nat.eqb_refl. cbn [andb]. reflexivity.
Qed.

(** ** Action functions *)
Definition vars_val (b : list (string * bval V)) : list (string * val) := map (fun '(x, w) => (x, bval_val w)) b.
Definition stack_var (st : list (sem_val V)) : string * val := ("value_stack", VVec (rev (map sval_val st))).
Definition fn_state (b : list (string * bval V)) (st : list (sem_val V)) (u : St) : rstate E V St :=
  {| rs_locals := vars_val b ++ [stack_var st]; rs_user := u |}.
Definition no_stack_var (b : list (string * bval V)) : Prop := forall x w, In (x, w) b -> x <> "value_stack".

Lemma vars_val_names b : map fst (vars_val b) = map fst b.
Proof. unfold vars_val. induction b as [|[x w] b IH]; cbn; [reflexivity|]. rewrite IH. reflexivity. Qed.
Lemma stack_get b st u : no_stack_var b -> lget "value_stack" (rs_locals (fn_state b st u)) = Some (VVec (rev (map sval_val st))).
Proof.
  intro H. cbn [fn_state rs_locals]. rewrite lget_app, lget_none; [reflexivity|]. rewrite vars_val_names. intro Hin. apply in_map_iff in Hin.
  destruct Hin as ((x & w) & E1 & Hin). cbn in E1. exact (H x w Hin E1).
Qed.
Lemma stack_set b st u st' : no_stack_var b ->
  with_locals (fn_state b st u) (lset "value_stack" (VVec (rev (map sval_val st'))) (rs_locals (fn_state b st u))) = fn_state b st' u.
Proof.
  intro H. unfold with_locals, fn_state. cbn [rs_user rs_locals]. f_equal. induction b as [|[x w] b IH]; [reflexivity|]. cbn [vars_val map app lset].
  destruct (String.eqb_spec "value_stack" x) as [E1|_]; [exfalso; exact (H x w (or_introl eq_refl) (eq_sym E1))|]. f_equal. apply IH. intros y v Hy. eapply H. right; exact Hy.
Qed.
Lemma vec_rev (l : list (sem_val V)) : rev (rev (map sval_val l)) = map sval_val l.
Proof. apply rev_involutive. Qed.
Lemma pop_stack b st u : no_stack_var b -> vec_method "value_stack" "pop" [] (fn_state b st u) = Some
  match st with [] => OVal (some_val None) (fn_state b [] u) | v :: st' => OVal (some_val (Some (sval_val v))) (fn_state b st' u) end.
Proof.
  intro H. unfold vec_method. rewrite stack_get by exact H. strs. cbn match. rewrite vec_rev. destruct st as [|v st']; cbn [map]; [reflexivity|].
  rewrite (stack_set b (v :: st') u st' H). reflexivity.
Qed.
Lemma push_stack b st u v : no_stack_var b -> vec_method "value_stack" "push" [sval_val v] (fn_state b st u) = Some (OVal unit_val (fn_state b (v :: st) u)).
Proof.
  intro H. unfold vec_method. rewrite stack_get by exact H. strs. cbn match. change (rev (map sval_val st) ++ [sval_val v]) with (rev (map sval_val (v :: st))).
  rewrite (stack_set b st u (v :: st) H). reflexivity.
Qed.

Definition method_ok (e : extract_method) : Prop :=
  match e with
  | ExToken i => exists c, nth_error (te_conversions te) i = Some c
  | ExNonTerminal v => v < n_variants g /\ exists t, declared_as (non_terminal_variant_name v) (result_enum te g) = [[t]]
  end.
Lemma call_method n d e w u : method_ok e -> sval_ok w ->
  call_fn M U n (S d) "SemanticActionResult" (method_name e) [sval_val w] u = method_out (extract e w) (sval_val w) u.
Proof.
  destruct e as [k|i]; cbn [method_ok method_name].
  - intros [H1 H2] Hw. apply call_non_terminal_method; auto.
  - intros (c & Hc) Hw. eapply call_token_method; eauto.
Qed.

Lemma eval_pop_method n d self e b st u : method_ok e -> Forall sval_ok st -> no_stack_var b ->
  eval M U n (call_fn M U n (S d)) self (XMethod (XMethod (XMethod (XId "value_stack") "pop" []) "unwrap" []) (method_name e) []) (fn_state b st u) =
  match st with
  | [] => OPanic KUnwrap u
  | v :: st' => match extract e v with Some w => OVal (bval_val w) (fn_state b st' u) | None => OPanic KUnreachable u end
  end.
Proof.
  intros He Hst Hb. cbn [eval]. rewrite stack_get by exact Hb. cbn [eval_list bind_outs]. rewrite pop_stack by exact Hb.
  destruct st as [|v st']; cbn [bind some_val val_method]; strs; cbn match; [reflexivity|]. cbn [bind].
  inversion Hst as [|? ? Hv0 Hst0]; subst.
  assert (Ha : forall w : val, w = sval_val v -> val_method U (call_fn M U n (S d)) w (method_name e) [] (fn_state b st' u) =
    match extract e v with Some w => OVal (bval_val w) (fn_state b st' u) | None => OPanic KUnreachable u end).
  { intros w Hw. assert (Hw' : val_method U (call_fn M U n (S d)) w (method_name e) [] (fn_state b st' u) = apply_fn (call_fn M U n (S d)) "SemanticActionResult" (method_name e) [w] (fn_state b st' u)).
    { subst w. destruct v; reflexivity. }
    rewrite Hw'. unfold apply_fn. assert (Hpass : pass (rs_locals (fn_state b st' u)) [w] = Some [w]) by (subst w; destruct v; reflexivity).
    rewrite Hpass. subst w. change (rs_user (fn_state b st' u)) with u. rewrite call_method by auto. unfold method_out. destruct (extract e v) as [x|]; [|reflexivity].
    destruct v; reflexivity. }
  exact (Ha _ eq_refl).
Qed.

Notation env := (module_env gp U).
Definition pop_kind (e : rt_panic) : panic_kind := match e with EmptyValueStack => KUnwrap | _ => KUnreachable end.
Definition body_out (variant : nat) (action : lexpr A) (b0 : list (string * bval V)) (r : list (sem_val V) * list (string * bval V) + rt_panic) (u : St) : out E V St :=
  match r with
  | inr e => OPanic (pop_kind e) u
  | inl (st, b) => match x_sem env action b u with
                   | (Value v, u') => OVal unit_val (fn_state b0 (VNonTerminal variant v :: st) u')
                   | (Panicked, u') => OPanic KUser u'
                   | (Returned, u') => OReturn unit_val (fn_state b st u')
                   end
  end.
Lemma bget_vars x b v l : bget x b = Some v -> lget x (vars_val b ++ l) = Some (bval_val v).
Proof. induction b as [|[y w] b IH]; cbn; intro H; [discriminate|]. destruct (String.eqb x y); [congruence|auto]. Qed.
Lemma visible_vars b st u : no_stack_var b -> visible (rs_locals (fn_state b st u)) = vars_val b.
Proof.
  intro H. unfold visible, fn_state. cbn [rs_locals]. induction b as [|[x w] b IH]; [reflexivity|]. cbn [vars_val map app filter].
  destruct (String.eqb_spec x "value_stack") as [E1|_]; [exfalso; exact (H x w (or_introl eq_refl) E1)|]. cbn [negb]. f_equal. apply IH. intros y v Hy. eapply H. right; exact Hy.
Qed.
Lemma leave_var x w b st u v : leave 1 (OVal v (fn_state ((x, w) :: b) st u)) = OVal v (fn_state b st u).
Proof. reflexivity. Qed.

Lemma eval_body n d self variant action : (exists t, declared_as (non_terminal_variant_name variant) (result_enum te g) = [[t]]) ->
  forall pops st b u, (forall m x e, In (PopBind m x e) pops -> is_constant M x = false /\ x <> "value_stack" /\ method_ok e) ->
  Forall sval_ok st -> no_stack_var b ->
  (forall x, action = EVar x -> forall st' b', run_pops pops st b = inl (st', b') -> exists v, bget x b' = Some (BVal v)) ->
  eval M U n (call_fn M U n (S d)) self (e_body pops variant action) (fn_state b st u) = body_out variant action b (run_pops pops st b) u.
Proof.
  intros (t & Hvar). induction pops as [|[|m x e] pops IH]; intros st b u Hpops Hst Hb Hvars; cbn [e_body].
  - cbn [run_pops]. cbn [eval]. rewrite stack_get by exact Hb. cbn [eval_list eval bind].
    rewrite (path_result te g gp Ht _ self "SemanticActionResult" _ _ eq_refl eq_refl eq_refl Hvar). cbn [bind eval_list].
    assert (Hfin : forall w u', match vec_method (E := E) (St := St) "value_stack" "push" [VCon "SemanticActionResult" (non_terminal_variant_name variant) [VUser w]] (fn_state b st u') with Some o => o | None => OIll end =
      OVal unit_val (fn_state b (VNonTerminal variant w :: st) u')).
    { intros w u'. change (VCon "SemanticActionResult" (non_terminal_variant_name variant) [VUser w]) with (sval_val (VNonTerminal variant w)). rewrite push_stack by exact Hb. reflexivity. }
    assert (Happ : forall w u', apply M (call_fn M U n (S d)) self (VCtor "SemanticActionResult" (non_terminal_variant_name variant)) [VUser w] (fn_state b st u') =
      OVal (VCon "SemanticActionResult" (non_terminal_variant_name variant) [VUser w]) (fn_state b st u')).
    { intros w u'. cbn [apply]. unfold construct. rewrite (ctor_result te g gp Ht self "SemanticActionResult" _ _ eq_refl eq_refl Hvar). reflexivity. }
    unfold body_out. destruct action as [a|x]; cbn [x_sem module_env user_xenv xsem].
    + cbn [eval eval_list]. rewrite visible_vars by exact Hb. change (rs_user (fn_state b st u)) with u. unfold action_sem.
      change (map (fun '(x, w) => (x, bval_val w)) b) with (vars_val b). destruct (us_action U a (vars_val b) u) as [[v| |] u'].
      * change (with_user (fn_state b st u) u') with (fn_state b st u'). cbn [bind_outs]. rewrite Happ. cbn [bind_outs]. apply Hfin.
      * reflexivity.
      * reflexivity.
    + destruct (Hvars x eq_refl _ _ eq_refl) as (v & Hv0). rewrite Hv0. cbn [eval eval_list]. unfold fn_state at 1. cbn [rs_locals]. rewrite (bget_vars x b _ _ Hv0).
      cbn [bind_outs bval_val]. rewrite Happ. cbn [bind_outs]. apply Hfin.
  - cbn [run_pops]. cbn [eval]. rewrite stack_get by exact Hb. cbn [eval_list bind_outs]. rewrite pop_stack by exact Hb.
    destruct st as [|v st']; cbn [bind].
    + apply IH; auto. intros m x e Hin. eapply Hpops. right; exact Hin.
    + apply IH; auto; [|inversion Hst; auto]. intros m x e Hin. eapply Hpops. right; exact Hin.
  - destruct (Hpops m x e (or_introl eq_refl)) as (Hc & Hx & He). cbn [eval]. rewrite Hc.
    pose proof (eval_pop_method n d self e b st u He Hst Hb) as Hpm. cbn [eval] in Hpm. rewrite Hpm. cbn [run_pops].
    destruct st as [|v st']; [reflexivity|]. cbn [run_pops] in Hvars. destruct (extract e v) as [w|]; [|reflexivity]. cbn [bind].
    change (with_locals (fn_state b st' u) ((x, bval_val w) :: rs_locals (fn_state b st' u))) with (fn_state ((x, w) :: b) st' u).
    rewrite IH; auto.
    + unfold body_out. destruct (run_pops pops st' ((x, w) :: b)) as [[st2 b2]|e']; [|reflexivity].
      destruct (x_sem env action b2 u) as [[r| |] u']; try reflexivity.
    + intros m' x' e' Hin. eapply Hpops. right; exact Hin.
    + inversion Hst; auto.
    + intros y z [E1|Hy]; [injection E1 as <- _; exact Hx|eapply Hb; exact Hy].
Qed.

Lemma run_pops_end : forall pops (st : list (sem_val V)) b,
  match run_pops pops st b with
  | inr e => e = EmptyValueStack \/ e = WrongVariant
  | inl (st', _) => Forall sval_ok st -> Forall sval_ok st'
  end.
Proof.
  induction pops as [|[|m x e] pops IH]; intros st b; cbn [run_pops].
  - auto.
  - specialize (IH (tl st) b). destruct (run_pops pops (tl st) b) as [[st' b']|e]; auto. intro H. apply IH. destruct st; [constructor|inversion H; auto].
  - destruct st as [|v st]; [auto|]. destruct (extract e v) as [w|]; [|auto]. specialize (IH st ((x, w) :: b)).
    destruct (run_pops pops st ((x, w) :: b)) as [[st' b']|e']; auto. intro H. inversion H; auto.
Qed.
Lemma x_call_end f st u st' u' : x_call env f st u = (inl st', u') -> Forall sval_ok st -> Forall sval_ok st'.
Proof.
  unfold x_call. pose proof (run_pops_end (sf_pops f) st []) as H. destruct (run_pops (sf_pops f) st []) as [[st1 b]|e]; [|discriminate].
  destruct (x_sem env (sf_action f) b u) as [[v| |] u1]; intros E1 Hst; try discriminate; injection E1 as <- <-; [constructor; [exact Logic.I|]|]; auto.
Qed.
Lemma finals_fn b st u : finals 1 (fn_state b st u) = [VVec (rev (map sval_val st))].
Proof.
  unfold finals, fn_state. cbn [rs_locals]. rewrite app_length. cbn [List.length]. rewrite Nat.add_sub, skipn_app, skipn_all, Nat.sub_diag. reflexivity.
Qed.
Definition stack_out (r : (list (sem_val V) + rt_panic) * St) : cout E V St :=
  match r with
  | (inl st, u) => CVal unit_val [VVec (rev (map sval_val st))] u
  | (inr e, u) => CPanic (panic_of e) u
  end.
Lemma call_action n d k name f st u : nth_error (fn_names g) k = Some name -> nth_error (gp_sem_actions gp) k = Some f -> Forall sval_ok st ->
  call_fn M U n (S (S d)) "" name [VVec (rev (map sval_val st))] u = stack_out (x_call env f st u).
Proof.
  intros Hk Hf Hst. pose proof (nth_error_In _ _ Hf) as Hin. set (d' := S d). cbn [call_fn]. rewrite (fn_plain te g gp _ _ (v_action te g gp Hl Hv k name f Hk Hf)).
  cbn [action_def fd_params fd_body List.length Nat.eqb existsb]. rewrite (ev_locals _ _ _ Hev "value_stack") by (cbn; auto 30). cbn [orb negb andb combine rev app].
  change {| rs_locals := [("value_stack", VVec (rev (map sval_val st)))]; rs_user := u |} with (fn_state [] st u). subst d'.
  rewrite eval_body.
  - unfold x_call, body_out. pose proof (run_pops_end (sf_pops f) st []) as He. destruct (run_pops (sf_pops f) st []) as [[st1 b]|e].
    + destruct (x_sem env (sf_action f) b u) as [[v| |] u1]; [|reflexivity|].
      * rewrite finals_fn. reflexivity.
      * rewrite finals_fn. reflexivity.
    + destruct He as [-> | ->]; reflexivity.
  - apply (ev_variant_types _ _ _ Hev f Hin).
  - intros m x e Hpb. split; [exact (ev_binders _ _ _ Hev f m x e Hin Hpb)|]. split; [exact (ev_value_stack _ _ _ Hev f m x e Hin Hpb)|]. exact (ev_methods _ _ _ Hev f m x e Hin Hpb).
  - exact Hst.
  - intros x w [].
  - intros x Hx st' b' Hr. destruct (ev_entry _ _ _ Hev f x Hin Hx) as (m & v & Hpops). rewrite Hpops in Hr. cbn [run_pops] in Hr.
    destruct st as [|w st]; [discriminate|]. destruct w as [i fs|k' y]; cbn [extract] in Hr; [discriminate|]. destruct (Nat.eqb v k'); [|discriminate].
    injection Hr as _ <-. exists y. cbn [bget]. rewrite String.eqb_refl. reflexivity.
Qed.

(** ** Token functions *)
Lemma gen_list_binds ps : Forall (fun p => forall ids, exists r, gen_pattern p ids = (r, ids ++ idents (List.length ids) (chosen p)) /\
      forall v b, rmatch r v = Some b -> map fst b = idents (List.length ids) (chosen p)) ps -> forall ids,
  exists rs, gen_list gen_pattern ps ids = (rs, ids ++ idents (List.length ids) (List.length (flat_map pattern_types ps))) /\
    forall vs b, rmatch_list rmatch rs vs = Some b -> map fst b = idents (List.length ids) (List.length (flat_map pattern_types ps)).
Proof.
  induction 1 as [|p ps Hp0 Hps IH]; intro ids; cbn [gen_list flat_map].
  - exists []. split; [cbn; rewrite app_nil_r; reflexivity|]. intros [|v vs] b H; cbn in H; [injection H as <-; reflexivity|discriminate].
  - destruct (Hp0 ids) as (r & E1 & Hr). rewrite E1. destruct (IH (ids ++ idents (List.length ids) (chosen p))) as (rs & E2 & Hrs).
    rewrite E2. rewrite app_length, idents_length in *. exists (r :: rs). split.
    + rewrite app_length, idents_app, <- app_assoc. reflexivity.
    + intros vs b H. rewrite app_length, idents_app. fold (chosen p).
      assert (Hgen : (match vs with [] => None | v :: vs' => match rmatch r v, rmatch_list rmatch rs vs' with Some b1, Some b2 => Some (b1 ++ b2) | _, _ => None end end = Some b) ->
        map fst b = idents (List.length ids) (chosen p) ++ idents (List.length ids + chosen p) (List.length (flat_map pattern_types ps))).
      { destruct vs as [|v vs']; [discriminate|]. destruct (rmatch r v) as [b1|] eqn:Eb1; [|discriminate]. destruct (rmatch_list rmatch rs vs') as [b2|] eqn:Eb2; [|discriminate].
        intro Hb. injection Hb as <-. rewrite map_app, (Hr _ _ Eb1), (Hrs _ _ Eb2). reflexivity. }
      destruct r; cbn [rmatch_list] in H; try (apply Hgen; exact H).
      (* [..] *)
      assert (Hz : chosen p = 0).
      { destruct p; cbn in E1; try (destruct (gen_list _ _ _); discriminate); try (destruct (gen_fields _ _ _); discriminate); try discriminate; try reflexivity.
        destruct (gen_list _ _ _) as [rs0 i0]. unfold tuple_no_trailing_comma in E1. destruct rs0 as [|r1 [|r2 rs0]]; try discriminate; destruct r1; discriminate. }
      rewrite Hz, Nat.add_0_r in *. cbn [idents seq map app]. destruct (Nat.ltb _ _); [discriminate|]. exact (Hrs _ _ H).
Qed.
Lemma gen_fields_binds fs : Forall (fun x => forall ids, exists r, gen_pattern (snd x) ids = (r, ids ++ idents (List.length ids) (chosen (snd x))) /\
      forall v b, rmatch r v = Some b -> map fst b = idents (List.length ids) (chosen (snd x))) fs -> forall ids,
  let n := List.length (flat_map (fun '(_, q) => pattern_types q) fs) in
  exists rs, gen_fields gen_pattern fs ids = (rs, ids ++ idents (List.length ids) n) /\
    forall vs b, rmatch_fields rmatch rs vs = Some b -> map fst b = idents (List.length ids) n.
Proof.
  induction 1 as [|[f p] fs Hp0 Hfs IH]; intro ids; cbn [gen_fields flat_map].
  - exists []. split; [cbn; rewrite app_nil_r; reflexivity|]. intros vs b H. cbn in H. injection H as <-; reflexivity.
  - cbn [snd] in Hp0. destruct (Hp0 ids) as (r & E1 & Hr). rewrite E1. destruct (IH (ids ++ idents (List.length ids) (chosen p))) as (rs & E2 & Hrs).
    rewrite E2. rewrite app_length, idents_length in *. exists ((f, r) :: rs). split.
    + rewrite app_length, idents_app, <- app_assoc. reflexivity.
    + intros vs b H. rewrite app_length, idents_app. fold (chosen p). cbn [rmatch_fields] in H.
      destruct (field_get f vs) as [v|]; [|discriminate]. destruct (rmatch r v) as [b1|] eqn:Eb1; [|discriminate].
      destruct (rmatch_fields rmatch rs vs) as [b2|] eqn:Eb2; [|discriminate]. injection H as <-. rewrite map_app, (Hr _ _ Eb1), (Hrs _ _ Eb2). reflexivity.
Qed.
Lemma gen_pattern_binds p : forall ids, exists r, gen_pattern p ids = (r, ids ++ idents (List.length ids) (chosen p)) /\
  forall v b, rmatch r v = Some b -> map fst b = idents (List.length ids) (chosen p).
Proof.
  induction p as [path ps H|path fs dots H|ps H|path| | |l|t] using pattern_ind'; intro ids; unfold chosen; cbn [gen_pattern pattern_types].
  - destruct (gen_list_binds ps H ids) as (rs & E1 & Hm). rewrite E1. eexists; split; [reflexivity|]. intros v b Hb. destruct v; cbn in Hb; try discriminate.
    destruct (path =? path0)%string; [eauto|discriminate].
  - destruct (gen_fields_binds fs H ids) as (rs & E1 & Hm). rewrite E1. eexists; split; [reflexivity|]. intros v b Hb. destruct v; cbn in Hb; try discriminate.
    destruct (path =? path0)%string; [eauto|discriminate].
  - destruct (gen_list_binds ps H ids) as (rs & E1 & Hm). rewrite E1. eexists; split; [reflexivity|]. intros v b Hb. unfold tuple_no_trailing_comma in Hb.
    assert (Htup : rmatch (RPTuple rs) v = Some b -> map fst b = idents (List.length ids) (List.length (flat_map pattern_types ps))).
    { clear Hb. destruct v; cbn; intro Hb; try discriminate. eauto. }
    destruct rs as [|r [|r2 rs]]; [apply Htup; exact Hb| |destruct r; apply Htup; exact Hb].
    assert (Hone : r <> RPRest -> rmatch r v = Some b -> rmatch_list rmatch [r] [v] = Some b).
    { intros Hr Hx. destruct r; try congruence; cbn [rmatch_list]; rewrite Hx, app_nil_r; reflexivity. }
    destruct r; try (apply Htup; exact Hb); (apply (Hm [v]); apply Hone; [discriminate|exact Hb]).
  - eexists; split; [cbn; rewrite app_nil_r; reflexivity|]. intros v b Hb. destruct v; cbn in Hb; try discriminate. destruct (path =? path0)%string; [injection Hb as <-; reflexivity|discriminate].
  - eexists; split; [cbn; rewrite app_nil_r; reflexivity|]. intros v b Hb. cbn in Hb. injection Hb as <-; reflexivity.
  - eexists; split; [cbn; rewrite app_nil_r; reflexivity|]. intros v b Hb. destruct v; discriminate.
  - eexists; split; [cbn; rewrite app_nil_r; reflexivity|]. intros v b Hb. destruct v; cbn in Hb; try discriminate. destruct (l =? lit)%string; [injection Hb as <-; reflexivity|discriminate].
  - eexists; split; [reflexivity|]. intros v b Hb. cbn in Hb. injection Hb as <-; reflexivity.
Qed.

Lemma idx_arms self n call t w s : strip w = (true, VTok t) -> forall l : list (nat * conversion),
  eval_arms M U self (eval M U n call self) (map (fun '(i, c) => (PUser (pattern_ignore (cv_to c)), XInt Usize i)) l) w s =
  match option_map fst (match_arms (map (fun '(i, c) => (pattern_ignore (cv_to c), i)) l) t) with
  | Some i => OVal (VInt i) s
  | None => OPanic KNoArm (rs_user s)
  end.
Proof.
  intro Hw. induction l as [|[i c] l IH]; [reflexivity|]. cbn [map eval_arms match_arms match_pat]. rewrite Hw. cbn [fst snd].
  rewrite rmatch_ignore. destruct (pmatch (cv_to c) t) as [vs|]; cbn [option_map]; [|exact IH].
  cbn [map bindings existsb List.length rev app eval fits fst leave]. destruct s as [l0 u0]. reflexivity.
Qed.
Lemma call_idx n d t w u : strip w = (true, VTok t) -> call_fn M U n (S d) "" (token_terminal_idx_name te) [w] u =
  match token_terminal_idx (te_conversions te) t with Some i => CVal (VInt i) [w] u | None => CPanic KNoArm u end.
Proof.
  intro Hw. cbn [call_fn]. rewrite (fn_plain te g gp _ _ (v_idx te g gp Hl Hv)).
  cbn [e_token_terminal_idx fn_def_of fd_params fd_body List.length Nat.eqb existsb]. rewrite (ev_locals _ _ _ Hev "token") by (cbn; auto 30).
  cbn [orb negb andb combine rev app eval lget rs_locals]. strs. cbn match. cbn [bind]. rewrite (idx_arms _ _ _ t w _ Hw).
  unfold token_terminal_idx. destruct (match_arms _ t) as [[i b]|]; reflexivity.
Qed.

Lemma vars_get_lookup (b : list (string * rval)) : NoDup (map fst b) -> vars_get (map fst b) b = Some (map snd b).
Proof.
  intro Hnd. assert (Hb : b = combine (map fst b) (map snd b)) by (clear; induction b as [|[x v] b IH]; cbn; [reflexivity|rewrite <- IH; reflexivity]).
  rewrite Hb at 2. apply var_get_combine; [exact Hnd|rewrite !map_length; reflexivity].
Qed.
Lemma value_arms n call t s : forall l : list (nat * conversion), (forall i c, In (i, c) l -> nth_error (te_conversions te) i = Some c) ->
  eval_arms M U "" (eval M U n call "") (map (fun '(i, c) => let (r, xs) := generate_pattern_syn_with_idents (cv_to c) in
         (PUser r, XCall (XPath "SemanticActionResult" (token_variant_name i)) (map XId xs))) l) (VTok t) s =
  match match match_arms (map (fun '(i, c) => let (r, xs) := generate_pattern_syn_with_idents (cv_to c) in (r, (i, xs))) l) t with
        | None => None
        | Some ((i, xs), b) => option_map (pair i) (vars_get xs b)
        end with
  | Some (i, fs) => OVal (sval_val (VToken i (map (us_part U) fs))) s
  | None => OPanic KNoArm (rs_user s)
  end.
Proof.
  induction l as [|[i c] l IH]; intro Hin; [reflexivity|]. cbn [map]. unfold generate_pattern_syn_with_idents at 1 3.
  destruct (gen_pattern_binds (cv_to c) []) as (r & E1 & Hb). rewrite E1. cbn [List.length app] in *. cbn [eval_arms match_arms match_pat strip fst snd].
  pose proof (Hin i c (or_introl eq_refl)) as Hc.
  destruct (rmatch r t) as [b|] eqn:Er; [|apply IH; intros i' c' H; apply Hin; right; exact H].
  pose proof (Hb _ _ Er) as Hf. cbn [fst]. rewrite <- Hf. assert (Hnd : NoDup (map fst b)) by (rewrite Hf; apply idents_NoDup).
  rewrite vars_get_lookup by exact Hnd. cbn [option_map]. set (b' := map (fun '(x, w) => (x, reref false (VUser (E := E) (us_part U w)))) b).
  assert (Hfst : map fst b' = map fst b) by (unfold b'; clear; induction b as [|[x v] b IH]; cbn; [reflexivity|f_equal; exact IH]).
  assert (Hsnd : map snd b' = map (VUser (E := E)) (map (us_part U) (map snd b))) by (unfold b'; clear; induction b as [|[x v] b IH]; cbn; [reflexivity|f_equal; exact IH]).
  assert (Hbind : bindings M b' = MYes b').
  { unfold bindings. rewrite existsb_none; [reflexivity|]. intros [x w] Hx. eapply idents_nonconstant; [eapply nth_error_In; exact Hc|]. change (List.length (pattern_types (cv_to c))) with (chosen (cv_to c)). rewrite <- Hf, <- Hfst. exact (in_map fst _ _ Hx). }
  rewrite Hbind. cbn [eval]. rewrite (path_result te g gp Ht _ "" "SemanticActionResult" _ _ eq_refl eq_refl eq_refl (proj1 (token_variant_declared te g i c Hc))). cbn [bind].
  destruct s as [l0 u0]. unfold with_locals. cbn [rs_locals rs_user]. 
  pose proof (eval_idents n call "" b' l0 u0) as Hi. rewrite Hfst in Hi. rewrite (Hi Hnd). cbn [bind_outs apply]. unfold construct.
  rewrite (ctor_result te g gp Ht "" "SemanticActionResult" _ _ eq_refl eq_refl (proj1 (token_variant_declared te g i c Hc))).
  assert (Hlen : List.length (map snd b') = List.length (pattern_types (cv_to c))).
  { rewrite map_length, <- (map_length fst b'), Hfst, Hf. apply idents_length. }
  rewrite Hlen, Nat.eqb_refl, leave_binds, Hsnd. reflexivity.
Qed.
Lemma call_value n d t u : call_fn M U n (S d) "" "token_value" [VTok t] u =
  match token_value (te_conversions te) t with
  | Some (i, fs) => CVal (sval_val (VToken i (map (us_part U) fs))) [VTok t] u
  | None => CPanic KNoArm u
  end.
Proof.
  cbn [call_fn]. rewrite (fn_plain te g gp _ _ (v_value te g gp Hl Hv)).
  cbn [e_token_value fn_def_of fd_params fd_body List.length Nat.eqb existsb]. rewrite (ev_locals _ _ _ Hev "token") by (cbn; auto 30).
  cbn [orb negb andb combine rev app eval lget rs_locals]. strs. cbn match. cbn [bind]. rewrite value_arms.
  - unfold token_value. destruct (match_arms _ t) as [[[i xs] b]|]; [|reflexivity]. destruct (vars_get xs b) as [fs|]; reflexivity.
  - intros i c H. apply enumerate_nth_error. exact H.
Qed.
Lemma token_value_parts t i fs : token_value (te_conversions te) t = Some (i, fs) -> sval_ok (VToken i (map (us_part U) fs)).
Proof.
  unfold token_value. assert (H : forall l, (forall i c, In (i, c) l -> nth_error (te_conversions te) i = Some c) ->
    match match_arms (map (fun '(i, c) => let (r, xs) := generate_pattern_syn_with_idents (cv_to c) in (r, (i, xs))) l) t with
    | None => None | Some ((i, xs), b) => option_map (pair i) (vars_get xs b) end = Some (i, fs) -> sval_ok (VToken i (map (us_part U) fs))).
  { induction l as [|[j c] l IH]; intros Hin H; [discriminate|]. cbn [map] in H. unfold generate_pattern_syn_with_idents at 1 in H.
    destruct (gen_pattern_binds (cv_to c) []) as (r & E1 & Hb). rewrite E1 in H. cbn [List.length app match_arms] in *. destruct (rmatch r t) as [b|] eqn:Er.
    - pose proof (Hb _ _ Er) as Hf. rewrite <- Hf, vars_get_lookup in H by (rewrite Hf; apply idents_NoDup). injection H as <- <-. exists c. split; [apply Hin; left; reflexivity|].
      rewrite !map_length, <- (map_length fst b), Hf. apply idents_length.
    - apply IH; auto. intros i' c' H'. apply Hin. right; exact H'. }
  apply H. intros i' c' H'. apply enumerate_nth_error. exact H'.
Qed.

End Run.
