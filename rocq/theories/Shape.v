(** * Shape: the generator looks at names, types, actions and binders only to copy them (C46)

    The item sets, the states and the tables are functions of the shape of the grammar: for every
    non-terminal whether it is public and the right-hand sides of its productions, and the number of
    terminals. *)
From Verif Require Export BaseProofs Codegen.

(** ** Lists that agree element by element *)

Lemma map_eq_Forall2 {X Y Z} (f : X -> Z) (h : Y -> Z) l : forall l',
  map f l = map h l' -> Forall2 (fun x y => f x = h y) l l'.
Proof. induction l as [|x l IH]; intros [|y l'] H; try discriminate; constructor; injection H; auto. Qed.
Lemma Forall2_map_eq {X Y Z} (f : X -> Z) (h : Y -> Z) l l' :
  Forall2 (fun x y => f x = h y) l l' -> map f l = map h l'.
Proof. induction 1; simpl; congruence. Qed.
Lemma Forall2_len {X Y} (R : X -> Y -> Prop) l l' : Forall2 R l l' -> List.length l = List.length l'.
Proof. induction 1; simpl; congruence. Qed.
Lemma Forall2_combine_seq {X Y} (R : X -> Y -> Prop) l l' : Forall2 R l l' -> forall k,
  Forall2 (fun x y => fst x = fst y /\ R (snd x) (snd y)) (combine (seq k (List.length l)) l) (combine (seq k (List.length l')) l').
Proof. induction 1; intro k; simpl; constructor; auto. Qed.
Lemma Forall2_enumerate {X Y} (R : X -> Y -> Prop) l l' : Forall2 R l l' ->
  Forall2 (fun x y => fst x = fst y /\ R (snd x) (snd y)) (enumerate l) (enumerate l').
Proof. intro H. apply Forall2_combine_seq; auto. Qed.
Lemma fold_left_alike {X Y B} (R : X -> Y -> Prop) (f : B -> X -> B) (h : B -> Y -> B) l l' :
  Forall2 R l l' -> (forall b x y, R x y -> f b x = h b y) -> forall b, fold_left f l b = fold_left h l' b.
Proof. intros H E. induction H; intro b; simpl; auto. rewrite (E b _ _ H). auto. Qed.
Lemma foldM_alike {X Y B} (R : X -> Y -> Prop) (f : B -> X -> res B) (h : B -> Y -> res B) l l' :
  Forall2 R l l' -> (forall b x y, R x y -> f b x = h b y) -> forall b, foldM f l b = foldM h l' b.
Proof. intros H E. induction H; intro b; simpl; auto. rewrite (E b _ _ H). destruct (h b y); simpl; auto. Qed.
Lemma foldM_same {X B} (f h : B -> X -> res B) l : (forall b x, f b x = h b x) -> forall b, foldM f l b = foldM h l b.
Proof. intros E. induction l; intro b; simpl; auto. rewrite E. destruct (h b a); simpl; auto. Qed.
Lemma mapM_same {X Y} (f h : X -> res Y) l : (forall x, f x = h x) -> mapM f l = mapM h l.
Proof. intros E. induction l; simpl; auto. rewrite E, IHl. auto. Qed.
Lemma fold_left_same {X B} (f h : B -> X -> B) l : (forall b x, f b x = h b x) -> forall b, fold_left f l b = fold_left h l b.
Proof. intros E. induction l; intro b; simpl; auto. rewrite E. auto. Qed.
Lemma bind_same {X Y} (r r' : res X) (k k' : X -> res Y) : r = r' -> (forall x, k x = k' x) -> bind r k = bind r' k'.
Proof. intros -> E. destruct r'; simpl; auto. Qed.

Definition nshape {A} (n : non_terminal A) : bool * list (list symbol) := (nt_public n, map rhs (nt_productions n)).
Definition shape {A} (g : grammar A) : list (bool * list (list symbol)) * nat :=
  (map nshape (g_nts g), List.length (g_terminals g)).

Section Shape.
Context {A B : Type} (g : grammar A) (h : grammar B).
Hypothesis Hs : shape g = shape h.

Lemma sh_nts : Forall2 (fun n m => nshape n = nshape m) (g_nts g) (g_nts h).
Proof. apply map_eq_Forall2. injection Hs; auto. Qed.
Lemma sh_terms : n_terminals g = n_terminals h.
Proof. unfold n_terminals. injection Hs; auto. Qed.
Lemma sh_terminal_indices : terminal_indices g = terminal_indices h.
Proof. unfold terminal_indices. rewrite sh_terms. auto. Qed.
Lemma sh_n_nts : n_non_terminals g = n_non_terminals h.
Proof. unfold n_non_terminals. apply (Forall2_len _ _ _ sh_nts). Qed.
Lemma sh_nt n : option_map nshape (get_non_terminal g n) = option_map nshape (get_non_terminal h n).
Proof. unfold get_non_terminal. rewrite <- !nth_error_map. injection Hs as -> _. auto. Qed.
Lemma sh_prod n p : option_map rhs (get_production g n p) = option_map rhs (get_production h n p).
Proof.
  pose proof (sh_nt n) as H. unfold get_production.
  destruct (get_non_terminal g n) as [x|], (get_non_terminal h n) as [y|]; simpl in H; try discriminate; auto.
  injection H as _ H. rewrite <- !nth_error_map. congruence.
Qed.
Lemma sh_rhs it : item_rhs g it = item_rhs h it.
Proof.
  pose proof (sh_prod (it_nt it) (it_prod it)) as H. unfold item_rhs.
  destruct (get_production g _ _), (get_production h _ _); simpl in H; try discriminate; auto. injection H; auto.
Qed.
Lemma sh_prod_indices n : non_terminal_production_indices g n = non_terminal_production_indices h n.
Proof.
  pose proof (sh_nt n) as H. unfold non_terminal_production_indices.
  destruct (get_non_terminal g n) as [x|], (get_non_terminal h n) as [y|]; simpl in H; try discriminate; auto.
  injection H as _ H. apply (f_equal (@List.length _)) in H. rewrite !map_length in H. rewrite H. auto.
Qed.
Lemma sh_next_symbol it : next_symbol g it = next_symbol h it.
Proof. unfold next_symbol. rewrite sh_rhs. auto. Qed.
Lemma sh_next_non_terminal it : next_non_terminal g it = next_non_terminal h it.
Proof. unfold next_non_terminal. rewrite sh_next_symbol. auto. Qed.
Lemma sh_next_terminal it : next_terminal g it = next_terminal h it.
Proof. unfold next_terminal. rewrite sh_next_symbol. auto. Qed.
Lemma sh_is_complete it : is_complete g it = is_complete h it.
Proof. unfold is_complete. rewrite sh_rhs. auto. Qed.
Lemma sh_all_symbols : all_symbols g = all_symbols h.
Proof. unfold all_symbols. rewrite sh_n_nts, sh_terminal_indices. auto. Qed.

Variable ho : hash_order.

Lemma sh_first_pass tbl : first_pass ho g tbl = first_pass ho h tbl.
Proof.
  unfold first_pass, non_terminal_indices. apply (fold_left_alike _ _ _ _ _ (Forall2_enumerate _ _ _ sh_nts)).
  intros st [i n] [j m] [Hi Hn]. cbn [fst snd] in *. subst j. injection Hn as _ Hp.
  apply (fold_left_alike _ _ _ _ _ (map_eq_Forall2 _ _ _ _ Hp)).
  intros st' p q Hpq. unfold first_production. rewrite Hpq. auto.
Qed.
Lemma sh_first_loop fuel : forall tbl, first_loop ho fuel g tbl = first_loop ho fuel h tbl.
Proof. induction fuel; intro tbl; simpl; auto. rewrite sh_first_pass. destruct (first_pass ho h tbl) as [t [|]]; auto. Qed.
Theorem sh_first_table fuel : generate_first_table ho fuel g = generate_first_table ho fuel h.
Proof. unfold generate_first_table. rewrite sh_n_nts. apply sh_first_loop. Qed.

Variable tbl : first_table.

Lemma sh_closure_step it st : closure_step ho g tbl it st = closure_step ho h tbl it st.
Proof. unfold closure_step. rewrite sh_next_non_terminal, sh_rhs. destruct (next_non_terminal h it); auto. rewrite sh_prod_indices. auto. Qed.
Lemma sh_closure_loop fuel : forall cl wl, closure_loop ho fuel g tbl cl wl = closure_loop ho fuel h tbl cl wl.
Proof.
  induction fuel; intros cl [|it wl]; simpl; auto. rewrite sh_closure_step.
  destruct (closure_step ho h tbl it (cl, wl)); auto.
Qed.
Lemma sh_closure fuel items : compute_lr1_closure ho fuel g tbl items = compute_lr1_closure ho fuel h tbl items.
Proof. unfold compute_lr1_closure. rewrite sh_closure_loop. auto. Qed.
Lemma sh_goto fuel state X : compute_lr1_goto ho fuel state X g tbl = compute_lr1_goto ho fuel state X h tbl.
Proof.
  unfold compute_lr1_goto. rewrite sh_closure. f_equal. unfold goto_kernel. apply fold_left_same.
  intros acc it. rewrite sh_next_symbol. auto.
Qed.
Lemma sh_round_state fuel acc x : round_state ho fuel g tbl acc x = round_state ho fuel h tbl acc x.
Proof. unfold round_state. rewrite sh_all_symbols. apply foldM_same. intros b X. unfold round_symbol. rewrite sh_goto. auto. Qed.
Lemma sh_round fuel states indices : automaton_round ho fuel g tbl states indices = automaton_round ho fuel h tbl states indices.
Proof. unfold automaton_round. rewrite (foldM_same _ _ _ (sh_round_state fuel)). auto. Qed.
Lemma sh_loop fuel n : forall states indices, automaton_loop ho n fuel g tbl states indices = automaton_loop ho n fuel h tbl states indices.
Proof. induction n; intros; simpl; auto. rewrite sh_round. apply bind_same; auto. intros [[s i] [|]]; auto. Qed.
Lemma sh_entries fuel b : foldM (add_entry ho fuel g tbl) (non_terminal_indices g) b = foldM (add_entry ho fuel h tbl) (non_terminal_indices h) b.
Proof.
  unfold non_terminal_indices. apply (foldM_alike _ _ _ _ _ (Forall2_enumerate _ _ _ sh_nts)).
  intros acc [i n] [j m] [Hi Hn]. cbn [fst snd] in *. subst j. injection Hn as Hpub Hp.
  apply (f_equal (@List.length _)) in Hp. rewrite !map_length in Hp. unfold add_entry. rewrite Hpub, Hp, sh_closure. auto.
Qed.
Theorem sh_automaton fuel : generate_lr1_automaton ho fuel g tbl = generate_lr1_automaton ho fuel h tbl.
Proof. unfold generate_lr1_automaton. rewrite sh_entries. apply bind_same; auto. intro e. rewrite sh_loop. auto. Qed.
End Shape.

(** ** Tables: the shape of the grammar with its action indices *)

Definition ashape_p {A} (p : production A) : list symbol * A := (rhs p, p_action p).
Definition ashape_n {A} (n : non_terminal A) : bool * list (list symbol * A) := (nt_public n, map ashape_p (nt_productions n)).
Definition ashape {A} (g : grammar A) : list (bool * list (list symbol * A)) * nat :=
  (map ashape_n (g_nts g), List.length (g_terminals g)).

Lemma ashape_shape {A} (g h : grammar A) : ashape g = ashape h -> shape g = shape h.
Proof.
  unfold ashape, shape. intro H. injection H as H1 H2. rewrite H2. f_equal.
  apply (f_equal (map (fun x : bool * list (list symbol * A) => (fst x, map fst (snd x))))) in H1. rewrite !map_map in H1.
  unfold nshape. rewrite (map_ext _ _ (fun n : non_terminal A => f_equal (pair (nt_public n)) (eq_sym (map_map ashape_p fst (nt_productions n))))).
  rewrite (map_ext (fun n : non_terminal A => (nt_public n, map rhs (nt_productions n))) _ (fun n => f_equal (pair (nt_public n)) (eq_sym (map_map ashape_p fst (nt_productions n))))).
  exact H1.
Qed.

Section AShape.
Context {A : Type} (g h : grammar A).
Hypothesis Hs : ashape g = ashape h.
Let Hs' : shape g = shape h := ashape_shape g h Hs.

Lemma ash_nt n : option_map ashape_n (get_non_terminal g n) = option_map ashape_n (get_non_terminal h n).
Proof. unfold get_non_terminal. rewrite <- !nth_error_map. injection Hs as -> _. auto. Qed.
Lemma ash_prod n p : option_map ashape_p (get_production g n p) = option_map ashape_p (get_production h n p).
Proof.
  pose proof (ash_nt n) as H. unfold get_production.
  destruct (get_non_terminal g n) as [x|], (get_non_terminal h n) as [y|]; simpl in H; try discriminate; auto.
  injection H as _ H. rewrite <- !nth_error_map. congruence.
Qed.
Variable ho : hash_order.
Lemma ash_table_item s st tb it : table_item ho g s st tb it = table_item ho h s st tb it.
Proof.
  unfold table_item. rewrite (sh_next_terminal g h Hs'), (sh_is_complete g h Hs').
  apply bind_same; auto. intro tb1. pose proof (ash_nt (it_nt it)) as Hn.
  destruct (get_non_terminal g (it_nt it)) as [x|], (get_non_terminal h (it_nt it)) as [y|]; simpl in Hn; try discriminate; auto.
  injection Hn as Hpub Hps. apply (f_equal (@List.length _)) in Hps. rewrite !map_length in Hps. rewrite Hpub, Hps.
  apply bind_same; auto. destruct (is_complete h it && negb (nt_public y))%bool; auto.
  pose proof (ash_prod (it_nt it) (it_prod it)) as Hp.
  destruct (get_production g _ _), (get_production h _ _); simpl in Hp; try discriminate; auto.
  injection Hp as _ ->. auto.
Qed.
Theorem ash_table states : build_lr1_table ho g states = build_lr1_table ho h states.
Proof. unfold build_lr1_table. apply foldM_same. intros tb x. unfold table_state. apply foldM_same. intros. apply ash_table_item. Qed.
End AShape.

Section NShape.
Variables (g h : grammar nat).
Hypothesis Hs : ashape g = ashape h.
Let Hs' : shape g = shape h := ashape_shape g h Hs.
Lemma ash_emit a : emit_action g a = emit_action h a.
Proof.
  unfold emit_action. destruct a as [[n|nt p act|]|]; auto. pose proof (ash_prod g h Hs nt p) as Hp.
  destruct (get_production g nt p) as [x|], (get_production h nt p) as [y|]; simpl in Hp; try discriminate; auto.
  injection Hp as Hr _. apply (f_equal (@List.length _)) in Hr. unfold rhs in Hr. rewrite !map_length in Hr. rewrite Hr. auto.
Qed.
Lemma ash_action_vec tb : action_table_vec g tb = action_table_vec h tb.
Proof. unfold action_table_vec. rewrite (sh_terminal_indices g h Hs'). auto. Qed.
Lemma ash_action_array t n m : generate_action_array g t n m = generate_action_array h t n m.
Proof.
  unfold generate_action_array. destruct (Nat.eqb _ _); auto. apply mapM_same. intro row.
  destruct (Nat.eqb _ _); auto. apply mapM_same, ash_emit.
Qed.
End NShape.
