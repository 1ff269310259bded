(** * EmitLoop: [parse_generic] of the emitted module *)
From Coq Require Import NArith Ascii.
From Verif Require Import NamesProofs PropertiesHygiene.
From Verif Require Export EmitRun.
Local Open Scope string_scope. Local Open Scope list_scope.

Section Loop.
Context {A E V St : Type}.
Variables (te : token_enum) (g : grammar (lexpr A)) (gp : generated (lexpr A)).
Hypothesis Hev : evaluable te g gp.
Variable U : user A E V St.
Variable pr : parser_struct.
Hypothesis Hpr : In pr (gp_parsers gp).
Notation M := (emit te g gp).
Notation val := (val E V).
Notation env := (module_env gp U).
Notation sval_val := (sval_val (E := E)).
Let Hl := ev_len _ _ _ Hev. Let Hv := ev_values _ _ _ Hev. Let Ht := ev_types _ _ _ Hev. Let Hp := ev_prelude _ _ _ Hev.

Definition tok_val (t : option (rval + E)) : val :=
  some_val (option_map (fun te => match te with inl t => VCon "Result" "Ok" [VTok t] | inr e => VCon "Result" "Err" [VErr e] end) t).
Definition base (st : xpstate rval E V St) : list (string * val) :=
  [("token", tok_val (xs_token st)); ("value_stack", VVec (rev (map sval_val (xs_values st)))); ("state_stack", VVec (rev (map VInt (xs_states st))));
   ("action_idx", VInt (pr_action_idx pr)); ("init_state", VInt (pr_init_state pr));
   ("extract_value", VFn "SemanticActionResult" (non_terminal_method_name (pr_extract_variant pr))); ("input", VIter)].
Definition at_ (more : list (string * val)) (st : xpstate rval E V St) : rstate E V St := {| rs_locals := more ++ base st; rs_user := xs_user st |}.

Variables n d : nat.
Notation ev := (eval M U n (call_fn M U n (S (S d))) "").

(** ** Pieces *)
Lemma path_action : path_val M (static_val (E := E) (V := V) M) "" "" "ACTION" = Some (VArr (action_rows gp)).
Proof. destruct (static_action (E := E) (V := V) te g gp Hev) as (dd & e & H1 & H2). rewrite (path_static te g gp _ _ _ _ _ H1). exact H2. Qed.
Lemma path_goto : path_val M (static_val (E := E) (V := V) M) "" "" "GOTO" = Some (VArr (goto_rows gp)).
Proof. destruct (static_goto (E := E) (V := V) te g gp Hev) as (dd & e & H1 & H2). rewrite (path_static te g gp _ _ _ _ _ H1). exact H2. Qed.
Lemma path_semantic : path_val M (static_val (E := E) (V := V) M) "" "" "SEMANTIC_ACTIONS" = Some (VArr (map (VFn "") (fn_names g))).
Proof. destruct (static_semantic (E := E) (V := V) te g gp Hev) as (dd & e & H1 & H2). rewrite (path_static te g gp _ _ _ _ _ H1). exact H2. Qed.
Lemma path_expected : path_val M (static_val (E := E) (V := V) M) "" "" "EXPECTED_TERMINALS" = Some (VArr (map VStr (gp_expected gp))).
Proof. destruct (static_expected (E := E) (V := V) te g gp Hev) as (dd & e & H1 & H2). rewrite (path_static te g gp _ _ _ _ _ H1). exact H2. Qed.
Lemma path_strs : path_val M (static_val (E := E) (V := V) M) "" "" "TERMINAL_STRS" = Some (VArr (map VStr (gp_terminal_strs gp))).
Proof. destruct (static_strs (E := E) (V := V) te g gp Hev) as (dd & e & H1 & H2). rewrite (path_static te g gp _ _ _ _ _ H1). exact H2. Qed.

Lemma eval_top s ss : lget "state_stack" (rs_locals s) = Some (VVec (rev (map VInt ss))) ->
  ev e_top s = match ss with [] => OPanic KUnwrap (rs_user s) | x :: _ => OVal (VInt x) s end.
Proof.
  intro H. unfold e_top. cbn [eval]. rewrite H. cbn [eval_list bind_outs]. unfold vec_method. rewrite H. strs. cbn match. rewrite rev_involutive.
  destruct ss as [|x ss]; cbn [map]; reflexivity.
Qed.

Lemma idx_local x : In x ["token"; "terminal_idx"; "state"; "value_stack"; "state_stack"; "action_idx"; "init_state"; "extract_value"; "input"] ->
  String.eqb (token_terminal_idx_name te) x = false.
Proof.
  intro H. apply String.eqb_neq. intro E1. unfold token_terminal_idx_name in E1.
  assert (Hlen : forall a b, String.length (a ++ b)%string = String.length a + String.length b) by (clear; induction a as [|c a IH]; intro b; cbn; [reflexivity|rewrite IH; reflexivity]).
  pose proof (f_equal String.length E1) as E2. rewrite Hlen in E2. pose proof (f_equal last_char E1) as E3. rewrite last_char_app in E3 by discriminate.
  cbn in H. repeat (destruct H as [<-|H]; [cbn in E2, E3; try discriminate E3; try (exfalso; clear - E2; lia)|]). contradiction.
Qed.

Ltac look := unfold at_, base, with_locals, with_user; repeat progress (cbn [app rev lget lset rs_locals rs_user bind bind_outs eval eval_list eval_fields eval_arms List.length Nat.eqb andb map fst snd combine
  some_val match_pat match_pats strip reref pass option_map copy_back leave skipn]; strs; cbn match).

Lemma nth_map {X Y} (f : X -> Y) (l : list X) i : nth_error (map f l) i = option_map f (nth_error l i).
Proof. revert i. induction l as [|x l IH]; intros [|i]; cbn; auto. Qed.

(** The lookahead: src/lr_codegen.rs:188-192 *)
Definition terminal_out (x : nat) (st : xpstate rval E V St) : out E V St :=
  match xs_token st with
  | None => OVal (VInt (gp_n_terminals gp)) (at_ [("state", VInt x)] st)
  | Some (inr e) => match us_clone U e (xs_user st) with
                    | (Some e', u') => OReturn (VCon "Result" "Err" [VCon "ParseError" "LexerError" [VErr e']])
                                         (with_user {| rs_locals := ("err", VRef (VErr e)) :: ("state", VInt x) :: base st; rs_user := xs_user st |} u')
                    | (None, u') => OPanic KUser u'
                    end
  | Some (inl tok) => match token_terminal_idx (te_conversions te) tok with
                      | Some i => OVal (VInt i) (at_ [("state", VInt x)] st)
                      | None => OPanic KNoArm (xs_user st)
                      end
  end.
Lemma eval_terminal x st : ev (e_terminal te gp) (at_ [("state", VInt x)] st) = terminal_out x st.
Proof.
  unfold e_terminal, terminal_out. look. rewrite (ctor_none te g gp Hl Hp).
  unfold tok_val. destruct (xs_token st) as [[tok|e]|]; cbn [some_val]; look.
  - rewrite (ctor_some te g gp Hl Hp), (ctor_err te g gp Hl Hp), (ctor_ok te g gp Hl Hp). look.
    rewrite (no_bind te g gp "token") by (apply (ev_locals _ _ _ Hev); cbn; auto 30). look. rewrite !idx_local by (cbn; auto 30).
    rewrite (path_fn te g gp _ _ _ _ (v_idx te g gp Hl Hv)). look. unfold apply, apply_fn. look.
    rewrite (call_idx te g gp Hev U n (S d) tok) by reflexivity. destruct (token_terminal_idx (te_conversions te) tok) as [i|]; [|reflexivity]. reflexivity.
  - rewrite (ctor_some te g gp Hl Hp), (ctor_err te g gp Hl Hp). look. rewrite (no_bind te g gp "err") by (apply (ev_locals _ _ _ Hev); cbn; auto 30). look.
    rewrite (path_prelude te g gp Hl Hp) by (cbn; auto). change (prelude_ctor "Err") with (Some ("Result", ShTuple ["E"])). look.
    rewrite (path_lexer_error te g gp Ht). look. cbn [val_method]. look.
    destruct (us_clone U e (xs_user st)) as [[e'|] u']; [|reflexivity]. look.
    unfold apply, construct. rewrite (ctor_lexer_error te g gp Ht), (ctor_err te g gp Hl Hp). reflexivity.
  - reflexivity.
Qed.
(** How [parse_generic] ends early, and how it goes on. *)
Definition stops (o : xoutcome E V St) (r : out E V St) : Prop :=
  match result_val (xo_result o) with
  | inl v => exists s, r = OReturn v s /\ rs_user s = xo_user o
  | inr k => r = OPanic k (xo_user o)
  end.
Definition steps (more : list (string * val)) (c : xpstate rval E V St + xoutcome E V St) (r : out E V St) : Prop :=
  match c with
  | inl st => (exists v, r = OVal v (at_ more st)) /\ Forall (sval_ok te) (xs_values st)
  | inr o => stops o r
  end.

Ltac locals := repeat match goal with
  | |- context [is_constant M ?x] => rewrite (ev_locals _ _ _ Hev x) by (cbn; auto 30)
  | |- context [bindings M [(?x, ?w)]] => rewrite (no_bind te g gp x) by (apply (ev_locals _ _ _ Hev); cbn; auto 30)
  end.

Lemma eval_error s t st : steps [("terminal_idx", VInt t); ("state", VInt s)]
  (match nth_error (gp_terminal_strs gp) t, nth_error (gp_expected gp) s with
   | Some found, Some expected => inr (XOutcome (PParserError found expected) (xs_user st))
   | _, _ => inr (XOutcome (PPanic OutOfBounds) (xs_user st))
   end) (ev e_error (at_ [("terminal_idx", VInt t); ("state", VInt s)] st)).
Proof.
  unfold e_error. look. locals. rewrite path_strs. look. rewrite nth_map. destruct (nth_error (gp_terminal_strs gp) t) as [found|]; cbn [option_map]; [|reflexivity]. look.
  locals. rewrite path_expected. look. rewrite nth_map. destruct (nth_error (gp_expected gp) s) as [expected|]; cbn [option_map]; [|reflexivity]. look.
  rewrite (path_prelude te g gp Hl Hp) by (cbn; auto). change (prelude_ctor "Err") with (Some ("Result", ShTuple ["E"])). look.
  unfold construct_fields. rewrite (ctor_parser_error te g gp Ht). look.
  unfold apply, construct. rewrite (ctor_err te g gp Hl Hp). cbn. eexists. split; reflexivity.
Qed.

Lemma rev_push {X} (f : X -> val) x l : rev (map f l) ++ [f x] = rev (map f (x :: l)).
Proof. reflexivity. Qed.
Lemma eval_shift s t next st : Forall (sval_ok te) (xs_values st) ->
  steps [("next_state", VInt next); ("terminal_idx", VInt t); ("state", VInt s)]
    (x_shift env next st) (ev e_shift (at_ [("next_state", VInt next); ("terminal_idx", VInt t); ("state", VInt s)] st)).
Proof.
  intro Hok. unfold e_shift, x_shift. cbn [module_env user_xenv x_next x_val]. look. unfold vec_method. look. locals.
  cbn [path_val]. change (path_val M (static_val (E := E) (V := V) M) "" "::std::mem" "replace") with (Some (VReplace (E := E) (V := V))). look. cbn [val_method]. look.
  destruct (us_next U (xs_user st)) as [[token'|] u']; [|reflexivity]. look. unfold apply. look.
  destruct (xs_token st) as [[tok|e]|];
    [change (tok_val (Some (inl tok))) with (VCon (E := E) (V := V) "Option" "Some" [VCon "Result" "Ok" [VTok tok]])
    |change (tok_val (Some (inr e))) with (VCon (E := E) (V := V) "Option" "Some" [VCon "Result" "Err" [VErr e]])
    |change (tok_val None) with (VCon (E := E) (V := V) "Option" "None" [])]; look.
  - rewrite (ctor_some te g gp Hl Hp), (ctor_ok te g gp Hl Hp). look. locals. look.
    rewrite (path_fn te g gp _ _ _ _ (v_value te g gp Hl Hv)). look. unfold apply, apply_fn. look.
    rewrite (call_value te g gp Hev U n (S d) tok). rewrite (ev_conv _ _ _ Hev). pose proof (token_value_parts te U tok) as Hparts.
    destruct (token_value (te_conversions te) tok) as [[i fs]|]; [|reflexivity]. look. unfold vec_method. look.
    split; [|constructor; [apply Hparts; reflexivity|exact Hok]]. eexists. reflexivity.
  - rewrite (ctor_some te g gp Hl Hp), (ctor_ok te g gp Hl Hp). look. split; [|exact Hok]. eexists. reflexivity.
  - rewrite (ctor_some te g gp Hl Hp). look. split; [|exact Hok]. eexists. reflexivity.
Qed.

(** [for _ in 0 .. n_symbols { state_stack.pop().unwrap(); }] (src/lr_codegen.rs:210-212) *)
Definition red (s t nt k act : nat) : list (string * val) :=
  [("semantic_action_idx", VInt act); ("n_symbols", VInt k); ("non_terminal_idx", VInt nt); ("terminal_idx", VInt t); ("state", VInt s)].
Lemma eval_pops s t nt k0 act : forall k st,
  repeat_for (ev (XMethod (XMethod (XId "state_stack") "pop" []) "unwrap" [])) k (at_ (red s t nt k0 act) st) =
  if Nat.ltb (List.length (xs_states st)) k then OPanic KUnwrap (xs_user st)
  else OVal unit_val (at_ (red s t nt k0 act) (XState (skipn k (xs_states st)) (xs_values st) (xs_token st) (xs_user st))).
Proof.
  induction k as [|k IH]; intros [ss vs tok u]; cbn [xs_states xs_values xs_token xs_user].
  - reflexivity.
  - cbn [repeat_for]. assert (Hone : ev (XMethod (XMethod (XId "state_stack") "pop" []) "unwrap" []) (at_ (red s t nt k0 act) (XState ss vs tok u)) =
      match ss with [] => OPanic KUnwrap u | x :: ss' => OVal (VInt x) (at_ (red s t nt k0 act) (XState ss' vs tok u)) end).
    { unfold red. look. unfold vec_method. look. cbn [xs_states]. rewrite rev_involutive.
      destruct ss as [|x ss]; look; unfold val_method; look; reflexivity. }
    rewrite Hone. destruct ss as [|x ss]; [reflexivity|]. rewrite IH. cbn [xs_states xs_values xs_token xs_user skipn List.length].
    change (Nat.ltb (S (List.length ss)) (S k)) with (Nat.ltb (List.length ss) k). reflexivity.
Qed.

Lemma actions_align k : match nth_error (gp_sem_actions gp) k with
                        | Some f => exists name, nth_error (fn_names g) k = Some name
                        | None => nth_error (fn_names g) k = None
                        end.
Proof.
  destruct (nth_error (gp_sem_actions gp) k) as [f|] eqn:E1.
  - assert (H : nth_error (gp_sem_actions gp) k <> None) by congruence. apply nth_error_Some in H. rewrite <- Hl in H. apply nth_error_Some in H.
    destruct (nth_error (fn_names g) k) as [name|]; [eauto|congruence].
  - apply nth_error_None in E1. rewrite <- Hl in E1. apply nth_error_None. exact E1.
Qed.
(** [SEMANTIC_ACTIONS[k](&mut value_stack)] on any frame. *)
Lemma apply_action k name f more st : nth_error (fn_names g) k = Some name -> nth_error (gp_sem_actions gp) k = Some f -> Forall (sval_ok te) (xs_values st) ->
  lget "value_stack" more = None -> (forall x l, lset "value_stack" x (more ++ l) = more ++ lset "value_stack" x l) ->
  apply_fn (call_fn M U n (S (S d))) "" name [VMut "value_stack"] (at_ more st) =
  match x_call env f (xs_values st) (xs_user st) with
  | (inl vs, u) => OVal unit_val (at_ more (XState (xs_states st) vs (xs_token st) u))
  | (inr e, u) => OPanic (panic_of e) u
  end.
Proof.
  intros H1 H2 H3 H4 H5. unfold apply_fn, at_. cbn [rs_locals pass]. rewrite (lget_app "value_stack" more), H4. unfold base at 1. cbn [lget]. strs. cbn match. cbn [rs_user].
  rewrite (call_action te g gp Hev U n d k name f (xs_values st) (xs_user st) H1 H2 H3). unfold stack_out.
  destruct (x_call env f (xs_values st) (xs_user st)) as [[vs|e] u]; [|reflexivity]. cbn [copy_back]. rewrite H5. reflexivity.
Qed.
Lemma index_rows {X} (f : X -> val) (t : list (list X)) i j :
  (match nth_error (map (fun row => VArr (map f row)) t) i with
   | Some (VArr l) => nth_error l j
   | _ => None
   end) = option_map f (index2 t i j).
Proof.
  rewrite nth_map. unfold index2. destruct (nth_error t i) as [row|]; [|reflexivity]. cbn [option_map]. apply nth_map.
Qed.
Lemma ev_seq e b s : ev (XSeq e b) s = bind (ev e s) (fun _ s' => ev b s'). Proof. reflexivity. Qed.
Lemma ev_call f es s : ev (XCall f es) s = bind (ev f s) (fun fv s' => bind_outs (eval_list ev es s') (fun vs s'' => apply M (call_fn M U n (S (S d))) "" fv vs s'')).
Proof. reflexivity. Qed.
Lemma ev_index a i s : ev (XIndex a i) s = bind (ev a s) (fun av s' => bind (ev i s') (fun iv s'' =>
        match av, iv with
        | VArr l, VInt n => match nth_error l n with Some v => OVal v s'' | None => OPanic KIndex (rs_user s'') end
        | _, _ => OIll
        end)).
Proof. reflexivity. Qed.
Lemma ev_for k b s : ev (XFor k b) s = bind (ev k s) (fun v s' => match v with VInt k => repeat_for (ev b) k s' | _ => OIll end). Proof. reflexivity. Qed.
Lemma ev_let x e b s : is_constant M x = false -> ev (XLet x e b) s = bind (ev e s) (fun v s' => leave 1 (ev b (with_locals s' ((x, v) :: rs_locals s')))).
Proof. intro H. cbn [eval]. rewrite H. reflexivity. Qed.
Lemma ev_local x v s : lget x (rs_locals s) = Some v -> ev (XId x) s = OVal v s. Proof. intro H. cbn [eval]. rewrite H. reflexivity. Qed.
Lemma ev_global x v s : lget x (rs_locals s) = None -> path_val M (static_val (E := E) (V := V) M) "" "" x = Some v -> ev (XId x) s = OVal v s.
Proof. intros H1 H2. cbn [eval]. rewrite H1, H2. reflexivity. Qed.
Lemma ev_match e arms s : ev (XMatch e arms) s = bind (ev e s) (fun v s' => eval_arms M U "" ev arms v s'). Proof. reflexivity. Qed.
Lemma ev_usize e s : ev (XAsUsize e) s = bind (ev e s) (fun v s' => match v with VInt n => OVal (VInt n) s' | _ => OIll end). Proof. reflexivity. Qed.
(** [SEMANTIC_ACTIONS[e](&mut value_stack)] *)
Lemma eval_sem_call e k more st : ev e (at_ more st) = OVal (VInt k) (at_ more st) -> Forall (sval_ok te) (xs_values st) ->
  lget "value_stack" more = None -> (forall x l, lset "value_stack" x (more ++ l) = more ++ lset "value_stack" x l) ->
  lget "SEMANTIC_ACTIONS" (more ++ base st) = None ->
  ev (XCall (XIndex (XId "SEMANTIC_ACTIONS") e) [XMutRef "value_stack"]) (at_ more st) =
  match nth_error (gp_sem_actions gp) k with
  | None => OPanic KIndex (xs_user st)
  | Some f => match x_call env f (xs_values st) (xs_user st) with
              | (inl vs, u) => OVal unit_val (at_ more (XState (xs_states st) vs (xs_token st) u))
              | (inr e, u) => OPanic (panic_of e) u
              end
  end.
Proof.
  intros He Hok H1 H2 H3. rewrite ev_call, ev_index, (ev_global _ _ (at_ more st) H3 path_semantic). cbn [bind]. rewrite He. cbn [bind].
  rewrite nth_map. pose proof (actions_align k) as Ha. destruct (nth_error (gp_sem_actions gp) k) as [f|] eqn:Ef; [destruct Ha as (name & Ha)|]; rewrite Ha; cbn [option_map]; [|reflexivity].
  cbn [bind eval_list eval]. cbn [bind_outs]. cbn [apply]. exact (apply_action k name f more st Ha Ef Hok H1 H2).
Qed.
Lemma eval_reduce s t nt k act st : Forall (sval_ok te) (xs_values st) ->
  steps (red s t nt k act) (x_reduce gp env nt k act st) (ev e_reduce (at_ (red s t nt k act) st)).
Proof.
  intro Hok. unfold e_reduce, x_reduce. rewrite ev_seq.
  rewrite (eval_sem_call (XAsUsize (XId "semantic_action_idx")) act) by (reflexivity || exact Hok).
  destruct (nth_error (gp_sem_actions gp) act) as [f|] eqn:Ef; [|reflexivity].
  destruct (x_call env f (xs_values st) (xs_user st)) as [[vs|e] u] eqn:Ec; [|reflexivity]. cbn [bind].
  pose proof (x_call_end te gp U f _ _ _ _ Ec Hok) as Hvs.
  rewrite ev_seq, ev_for, (ev_local "n_symbols" (VInt k)) by reflexivity. cbn [bind]. rewrite eval_pops. cbn [xs_states xs_values xs_token xs_user].
  destruct (Nat.ltb (List.length (xs_states st)) k); [reflexivity|]. cbn [bind].
  rewrite ev_let by (apply (ev_locals _ _ _ Hev); cbn; auto 30).
  rewrite (eval_top (at_ (red s t nt k act) (XState (skipn k (xs_states st)) vs (xs_token st) u)) (skipn k (xs_states st)) eq_refl).
  destruct (skipn k (xs_states st)) as [|x rest]; [reflexivity|]. cbn [bind]. unfold red. look. rewrite path_goto. look. unfold goto_rows.
  pose proof (index_rows (fun a => some_val (option_map (VInt (E := E) (V := V)) a)) (gp_goto gp) x nt) as Hix. rewrite nth_map in *.
  destruct (nth_error (gp_goto gp) x) as [row|] eqn:Er; cbn [option_map] in *.
  2: { unfold index2. rewrite Er. reflexivity. }
  look. rewrite Hix. destruct (index2 (gp_goto gp) x nt) as [[next|]|]; cbn [option_map]; [| |reflexivity]; look.
  - rewrite (ctor_none te g gp Hl Hp). look. rewrite (ctor_some te g gp Hl Hp). look. locals. look. unfold vec_method. look. split; [|exact Hvs]. eexists. reflexivity.
  - rewrite (ctor_none te g gp Hl Hp). look. reflexivity.
Qed.

(** ** An iteration of the loop *)
Lemma steps_leave front more c r : steps (front ++ more) c r -> steps more c (leave (List.length front) r).
Proof.
  unfold steps. destruct c as [st|o].
  - intros [(v & ->) H]. split; [|exact H]. exists v. unfold leave, at_, with_locals. cbn [rs_locals rs_user]. rewrite <- app_assoc, skipn_app, skipn_all, Nat.sub_diag. reflexivity.
  - unfold stops. destruct (result_val (xo_result o)) as [v|k]; [intros (s & -> & H); exists s; split; [reflexivity|exact H]|intros ->; reflexivity].
Qed.
Lemma m_none (o : option val) : match_pat M U "" (PUnit "" "None") (some_val o) = match o with None => MYes [] | Some _ => MNo end.
Proof. cbn [match_pat]. rewrite (ctor_none te g gp Hl Hp). destruct o; reflexivity. Qed.
Lemma m_some p v : match_pat M U "" (PTuple "" "Some" [p]) (some_val (Some v)) = match match_pat M U "" p v with MYes b => MYes (b ++ []) | m => m end.
Proof. cbn [match_pat]. rewrite (ctor_some te g gp Hl Hp). look. destruct (match_pat M U "" p v); reflexivity. Qed.
Lemma bindings_locals (b : list (string * val)) : (forall x, In x (map fst b) -> In x template_locals) -> bindings M b = MYes b.
Proof. intro H. unfold bindings. rewrite existsb_none; [reflexivity|]. intros [x w] Hx. apply (ev_locals _ _ _ Hev). apply H. exact (in_map fst _ _ Hx). Qed.
Lemma m_shift r : match_pat M U "" (PFields "LRAction" "Shift" ["next_state"]) (action_val (E := E) (V := V) r) =
  match r with RShift s => MYes [("next_state", VInt s)] | _ => MNo end.
Proof.
  cbn [match_pat]. rewrite (ctor_shift te g gp Ht). destruct r as [s|nt k act|]; cbn [action_val]; [|reflexivity|reflexivity]. look.
  match goal with |- context [if ?c then _ else _] => destruct c as [_|Hc]; [|exfalso; apply Hc; reflexivity] end.
  apply bindings_locals. intros x Hx. cbn in Hx. repeat (destruct Hx as [<-|Hx]; [cbn; auto 30|]). contradiction.
Qed.
Lemma m_reduce r : match_pat M U "" (PFields "LRAction" "Reduce" ["non_terminal_idx"; "n_symbols"; "semantic_action_idx"]) (action_val (E := E) (V := V) r) =
  match r with RReduce nt k act => MYes [("non_terminal_idx", VInt nt); ("n_symbols", VInt k); ("semantic_action_idx", VInt act)] | _ => MNo end.
Proof.
  cbn [match_pat]. rewrite (ctor_reduce te g gp Ht). destruct r as [s|nt k act|]; cbn [action_val]; [reflexivity| |reflexivity]. look.
  match goal with |- context [if ?c then _ else _] => destruct c as [_|Hc]; [|exfalso; apply Hc; reflexivity] end.
  apply bindings_locals. intros x Hx. cbn in Hx. repeat (destruct Hx as [<-|Hx]; [cbn; auto 30|]). contradiction.
Qed.
Lemma m_accept r : match_pat M U "" (PUnit "LRAction" "Accept") (action_val (E := E) (V := V) r) = match r with RAccept => MYes [] | _ => MNo end.
Proof. cbn [match_pat]. rewrite (ctor_accept te g gp Ht). destruct r; reflexivity. Qed.
Lemma eval_iteration st : Forall (sval_ok te) (xs_values st) ->
  (x_step gp env pr st = x_accept gp env pr st /\ ev (e_loop_body te gp) (at_ [] st) = OBreak (at_ [] st)) \/
  steps [] (x_step gp env pr st) (ev (e_loop_body te gp) (at_ [] st)).
Proof.
  intro Hok. unfold e_loop_body. rewrite ev_let by (apply (ev_locals _ _ _ Hev); cbn; auto 30).
  rewrite (eval_top (at_ [] st) (xs_states st) eq_refl). unfold x_step. destruct (xs_states st) as [|x rest] eqn:Hs; [right; reflexivity|]. cbn [bind].
  change (with_locals (at_ [] st) (("state", VInt x) :: rs_locals (at_ [] st))) with (at_ [("state", VInt x)] st).
  rewrite ev_let by (apply (ev_locals _ _ _ Hev); cbn; auto 30). rewrite eval_terminal.
  assert (Hdisp : forall t, (x_dispatch gp env pr st x t = x_accept gp env pr st /\
      leave 1 (leave 1 (ev (XMatch (XIndex (XIndex (XId "ACTION") (XId "state")) (XId "terminal_idx"))
        [(PUnit "" "None", e_error);
         (PTuple "" "Some" [PFields "LRAction" "Shift" ["next_state"]], e_shift);
         (PTuple "" "Some" [PFields "LRAction" "Reduce" ["non_terminal_idx"; "n_symbols"; "semantic_action_idx"]], e_reduce);
         (PTuple "" "Some" [PUnit "LRAction" "Accept"], XBreak)]) (at_ [("terminal_idx", VInt t); ("state", VInt x)] st))) = OBreak (at_ [] st)) \/
     steps [] (x_dispatch gp env pr st x t)
      (leave 1 (leave 1 (ev (XMatch (XIndex (XIndex (XId "ACTION") (XId "state")) (XId "terminal_idx"))
        [(PUnit "" "None", e_error);
         (PTuple "" "Some" [PFields "LRAction" "Shift" ["next_state"]], e_shift);
         (PTuple "" "Some" [PFields "LRAction" "Reduce" ["non_terminal_idx"; "n_symbols"; "semantic_action_idx"]], e_reduce);
         (PTuple "" "Some" [PUnit "LRAction" "Accept"], XBreak)]) (at_ [("terminal_idx", VInt t); ("state", VInt x)] st))))).
  { intro t. rewrite ev_match, ev_index, ev_index, (ev_global "ACTION" _ (at_ [("terminal_idx", VInt t); ("state", VInt x)] st) eq_refl path_action). cbn [bind].
    rewrite (ev_local "state" (VInt x)) by reflexivity. cbn [bind]. unfold action_rows, x_dispatch.
    pose proof (index_rows (fun a => some_val (option_map (action_val (E := E) (V := V)) a)) (gp_action gp) x t) as Hix. rewrite nth_map in *.
    destruct (nth_error (gp_action gp) x) as [row|] eqn:Er; cbn [option_map] in *.
    2: { right. unfold index2. rewrite Er. reflexivity. }
    cbn [bind]. rewrite (ev_local "terminal_idx" (VInt t)) by reflexivity. cbn [bind]. rewrite Hix. clear Hix.
    destruct (index2 (gp_action gp) x t) as [[r|]|]; cbn [option_map]; [| |right; reflexivity].
    - cbn [bind eval_arms]. rewrite m_none. rewrite !m_some, m_shift, m_reduce, m_accept. destruct r as [next|nt k act|].
      + right. apply (steps_leave [("state", VInt x)] []), (steps_leave [("terminal_idx", VInt t)]), (steps_leave [("next_state", VInt next)]).
        exact (eval_shift x t next st Hok).
      + right. apply (steps_leave [("state", VInt x)] []), (steps_leave [("terminal_idx", VInt t)]).
        apply (steps_leave [("semantic_action_idx", VInt act); ("n_symbols", VInt k); ("non_terminal_idx", VInt nt)]). exact (eval_reduce x t nt k act st Hok).
      + left. split; reflexivity.
    - right. cbn [bind eval_arms]. rewrite m_none. apply (steps_leave [("state", VInt x)] []), (steps_leave [("terminal_idx", VInt t)]), (steps_leave []). exact (eval_error x t st). }
  unfold terminal_out. cbn [module_env user_xenv x_clone x_idx].
  destruct (xs_token st) as [[tok|e]|] eqn:Htok.
  - rewrite (ev_conv _ _ _ Hev). destruct (token_terminal_idx (te_conversions te) tok) as [t|]; [|right; reflexivity]. exact (Hdisp t).
  - right. change (us_clone U e (xs_user st)) with (us_clone U e (xs_user st)). destruct (us_clone U e (xs_user st)) as [[e'|] u']; [|reflexivity]. cbn. eexists. split; reflexivity.
  - exact (Hdisp (gp_n_terminals gp)).
Qed.

(** ** The loop *)
Lemma x_accept_ends st : exists o, x_accept gp env pr st = inr o.
Proof.
  unfold x_accept. destruct (nth_error (gp_sem_actions gp) (pr_action_idx pr)) as [f|]; [|eauto]. destruct (x_call env f (xs_values st) (xs_user st)) as [[[|v vs]|e] u]; eauto.
  destruct (extract _ v) as [[w|l]|]; eauto.
Qed.
Lemma eval_loop : forall k st, Forall (sval_ok te) (xs_values st) ->
  match x_run gp env k pr (inl st) with
  | inl _ => repeat_loop (ev (e_loop_body te gp)) k (at_ [] st) = OFuel
  | inr o => stops o (repeat_loop (ev (e_loop_body te gp)) k (at_ [] st)) \/
             exists st', x_accept gp env pr st' = inr o /\ Forall (sval_ok te) (xs_values st') /\ repeat_loop (ev (e_loop_body te gp)) k (at_ [] st) = OVal unit_val (at_ [] st')
  end.
Proof.
  induction k as [|k IH]; intros st Hok; [reflexivity|]. cbn [x_run repeat_loop]. destruct (eval_iteration st Hok) as [[H1 H2]|H].
  - rewrite H1, H2. destruct (x_accept_ends st) as (o & Ho). rewrite Ho. assert (Hr : x_run gp env k pr (inr o) = inr o) by (destruct k; reflexivity). rewrite Hr.
    right. exists st. auto.
  - destruct (x_step gp env pr st) as [st'|o]; cbn [steps] in H.
    + destruct H as [(v & ->) Hok']. exact (IH st' Hok').
    + assert (Hr : x_run gp env k pr (inr o) = inr o) by (destruct k; reflexivity). rewrite Hr. left. unfold stops in *.
      destruct (result_val (xo_result o)) as [v|kk]; [destruct H as (s & -> & Hs); exists s; auto|rewrite H; reflexivity].
Qed.

(** ** After the loop *)
Lemma eval_after st o : Forall (sval_ok te) (xs_values st) -> x_accept gp env pr st = inr o ->
  match result_val (xo_result o) with
  | inl v => exists s, ev e_after_loop (at_ [] st) = OVal v s /\ rs_user s = xo_user o
  | inr k => ev e_after_loop (at_ [] st) = OPanic k (xo_user o)
  end.
Proof.
  intros Hok Ha. unfold e_after_loop. rewrite ev_seq, (eval_sem_call (XId "action_idx") (pr_action_idx pr)) by (reflexivity || exact Hok). unfold x_accept in Ha.
  destruct (nth_error (gp_sem_actions gp) (pr_action_idx pr)) as [f|]; [|injection Ha as <-; reflexivity].
  destruct (x_call env f (xs_values st) (xs_user st)) as [[vs|e] u] eqn:Ec; [|injection Ha as <-; reflexivity]. cbn [bind].
  pose proof (x_call_end te gp U f _ _ _ _ Ec Hok) as Hvs. rewrite ev_call.
  rewrite (ev_global "Ok" (VCtor "" "Ok")) by (reflexivity || rewrite (path_prelude te g gp Hl Hp) by (cbn; auto); reflexivity). cbn [bind eval_list].
  rewrite ev_call, (ev_local "extract_value" (VFn "SemanticActionResult" (non_terminal_method_name (pr_extract_variant pr)))) by reflexivity. cbn [bind eval_list].
  assert (Hpop : ev (XMethod (XMethod (XId "value_stack") "pop" []) "unwrap" []) (at_ [] (XState (xs_states st) vs (xs_token st) u)) =
    match vs with [] => OPanic KUnwrap u | v :: vs' => OVal (sval_val v) (at_ [] (XState (xs_states st) vs' (xs_token st) u)) end).
  { look. unfold vec_method. look. cbn [xs_values]. rewrite rev_involutive. destruct vs as [|v vs']; look; unfold val_method; look; reflexivity. }
  rewrite Hpop. destruct vs as [|v vs']; [injection Ha as <-; reflexivity|]. cbn [bind_outs]. cbn [apply]. unfold apply_fn.
  destruct (ev_parsers _ _ _ Hev pr Hpr) as (_ & Hk & Ht1). inversion Hvs as [|? ? Hv1 Hv2]; subst.
  assert (Hpass : match sval_val v with VMut _ => False | _ => True end) by (destruct v; exact Logic.I).
  assert (Hp1 : pass (rs_locals (at_ [] (XState (xs_states st) vs' (xs_token st) u))) [sval_val v] = Some [sval_val v]) by (destruct v; reflexivity).
  pose proof (call_non_terminal_method te g gp Hev U n (S d) (pr_extract_variant pr) v u Hk Ht1 Hv1) as Hc.
  rewrite Hp1. change (rs_user (at_ [] (XState (xs_states st) vs' (xs_token st) u))) with u. rewrite Hc. unfold method_out.
  destruct (extract (ExNonTerminal (pr_extract_variant pr)) v) as [[fs|w]|] eqn:Ex.
  2: { injection Ha as <-. cbn [bind_outs]. unfold apply, construct. rewrite (ctor_ok te g gp Hl Hp). cbn. eexists. split; reflexivity. }
  1: exfalso; destruct v as [i fs'|k' y]; cbn in Ex; [discriminate|destruct (Nat.eqb _ _); discriminate].
  1: injection Ha as <-; reflexivity.
Qed.

(** ** [parse] *)
Definition ends (c : xpstate rval E V St + xoutcome E V St) (r : cout E V St) : Prop :=
  match c with
  | inl _ => r = CFuel
  | inr o => match result_val (xo_result o) with
             | inl v => exists ps, r = CVal v ps (xo_user o)
             | inr k => r = CPanic k (xo_user o)
             end
  end.
Lemma call_generic u : ends (x_parse gp env n pr u)
  (call_fn M U n (S (S (S d))) "" "parse_generic"
     [VIter; VFn "SemanticActionResult" (non_terminal_method_name (pr_extract_variant pr)); VInt (pr_init_state pr); VInt (pr_action_idx pr)] u).
Proof.
  set (d' := S (S d)). cbn [call_fn]. rewrite (fn_plain te g gp _ _ (v_generic te g gp Hl Hv)).
  cbn [e_parse_generic fn_def_of fd_params fd_body List.length Nat.eqb andb].
  rewrite existsb_none.
  2: { intros x Hx. apply (ev_locals _ _ _ Hev). cbn in Hx. repeat (destruct Hx as [<-|Hx]; [cbn; auto 30|]). contradiction. }
  cbn [negb combine rev app]. subst d'.
  set (s0 := {| rs_locals := [("action_idx", VInt (pr_action_idx pr)); ("init_state", VInt (pr_init_state pr));
     ("extract_value", VFn "SemanticActionResult" (non_terminal_method_name (pr_extract_variant pr))); ("input", VIter)]; rs_user := u |}).
  assert (Hbody : ends (x_parse gp env n pr u)
     (match ev (XLet "state_stack" (XVec [XId "init_state"]) (XLet "value_stack" (XVec []) (XLet "token" (XMethod (XId "input") "next" []) (XSeq (XLoop (e_loop_body te gp)) e_after_loop)))) s0 with
      | OVal v s | OReturn v s => CVal v (finals 4 s) (rs_user s)
      | OPanic k u' => CPanic k u'
      | OBreak _ | OIll => CIll
      | OFuel => CFuel
      end)); [|exact Hbody].
  rewrite ev_let by (apply (ev_locals _ _ _ Hev); cbn; auto 30).
  change (ev (XVec [XId "init_state"]) s0) with (OVal (VVec [VInt (E := E) (V := V) (pr_init_state pr)]) s0). cbn [bind].
  rewrite ev_let by (apply (ev_locals _ _ _ Hev); cbn; auto 30). change (ev (XVec []) ?s) with (OVal (VVec (E := E) (V := V) []) s). cbn [bind].
  rewrite ev_let by (apply (ev_locals _ _ _ Hev); cbn; auto 30). unfold x_parse, x_init. cbn [module_env user_xenv x_next].
  assert (Hnext : forall s : rstate E V St, lget "input" (rs_locals s) = Some VIter -> ev (XMethod (XId "input") "next" []) s =
     match us_next U (rs_user s) with (Some r, u') => OVal (tok_val r) (with_user s u') | (None, u') => OPanic KUser u' end).
  { intros s Hs. cbn [eval]. rewrite Hs. cbn [bind eval_list bind_outs val_method]. strs. cbn match. destruct (us_next U (rs_user s)) as [[r|] u']; reflexivity. }
  rewrite Hnext by reflexivity. cbn [rs_user with_locals s0]. change (us_next U (rs_user s0)) with (us_next U u).
  destruct (us_next U u) as [[r|] u']; [|destruct n; reflexivity]. cbn [bind].
  set (st := XState [pr_init_state pr] [] r u').
  match goal with |- context [ev (XSeq (XLoop (e_loop_body te gp)) e_after_loop) ?s] => change s with (at_ [] st) end.
  rewrite ev_seq. change (ev (XLoop (e_loop_body te gp)) (at_ [] st)) with (repeat_loop (ev (e_loop_body te gp)) n (at_ [] st)).
  pose proof (eval_loop n st (Forall_nil _)) as H. destruct (x_run gp env n pr (inl st)) as [st'|o].
  - rewrite H. reflexivity.
  - destruct H as [H|(st' & Hacc & Hok & H)].
    + unfold stops in H. cbn [ends]. destruct (result_val (xo_result o)) as [v|k]; [destruct H as (s & -> & <-); cbn; eexists; reflexivity|rewrite H; reflexivity].
    + rewrite H. cbn [bind]. pose proof (eval_after st' o Hok Hacc) as Hx. cbn [ends]. destruct (result_val (xo_result o)) as [v|k].
      * destruct Hx as (s & -> & <-). cbn. eexists. reflexivity.
      * rewrite Hx. reflexivity.
Qed.
Lemma call_parse u : pr_name pr <> "" -> call_fn M U n (S (S (S (S d)))) (pr_name pr) "parse" [VIter] u = call_of (x_parse gp env n pr u).
Proof.
  intro Hne. pose proof (call_generic u) as Hg. revert Hg. generalize (S (S (S d))). intros d' Hg. cbn [call_fn]. rewrite (fn_parser te g gp Ht pr Hpr Hne).
  cbn [parse_fn fd_params fd_body List.length Nat.eqb existsb]. rewrite (ev_locals _ _ _ Hev "input") by (cbn; auto 30). cbn [orb negb andb combine rev app].
  destruct (ev_parsers _ _ _ Hev pr Hpr) as (Hfit & Hk & Ht1).
  assert (Hself : forall x, x <> "" -> path_val M (static_val (E := E) (V := V) M) (pr_name pr) "" x = path_val M (static_val (E := E) (V := V) M) "" "" x) by reflexivity.
  cbn [eval lget rs_locals]. strs. cbn match. rewrite (path_fn te g gp _ _ _ _ (v_generic te g gp Hl Hv)). cbn [bind eval_list eval lget rs_locals]. strs. cbn match.
  rewrite (path_method te g gp Ht _ (pr_name pr) (non_terminal_method_name (pr_extract_variant pr)) (snd (e_non_terminal_method (pr_extract_variant pr)))).
  - rewrite Hfit. change (fits Usize (pr_action_idx pr)) with true. cbn [bind_outs]. unfold apply, apply_fn. cbn [pass option_map rs_locals rs_user]. unfold ends in Hg. unfold call_of.
    destruct (x_parse gp env n pr u) as [st|o]; [rewrite Hg; reflexivity|]. destruct (result_val (xo_result o)) as [v|k]; [destruct Hg as (ps & ->)|rewrite Hg; reflexivity].
    assert (Hcb : forall ps (l : list (string * val)), copy_back [VIter; VFn "SemanticActionResult" (non_terminal_method_name (pr_extract_variant pr)); VInt (pr_init_state pr); VInt (pr_action_idx pr)] ps l = l).
    { clear. intros ps l. do 5 (destruct ps as [|? ps]; [reflexivity|]). reflexivity. }
    rewrite Hcb. reflexivity.
  - apply in_map_iff. exists (non_terminal_method_name (pr_extract_variant pr), snd (e_non_terminal_method (A := A) (pr_extract_variant pr))). split; [reflexivity|].
    apply declared_In. rewrite (m_non_terminal te g _ Hk). left; reflexivity.
  - exact (m_non_terminal te g _ Hk).
Qed.
End Loop.
