(** * LrSpec: textbook grammar classes (C74), over declared names.

    USpec.v defines LR(1) by valid items.  Here: Knuth's own definition by rightmost derivations, and the classes
    SLR(1), LALR(1) and LL(1) that other parser generators ask for. *)
From Verif Require Export USpec.

Section LrSpec.
Context {A : Type}.
Variable nts : list (ast_non_terminal A).

(** Rightmost derivations. *)
Inductive rstep : list ast_symbol -> list ast_symbol -> Prop :=
| rs : forall l n p pr w, uproduction nts n p = Some pr ->
    rstep (l ++ ASNonTerminal n :: map ASTerminal w) (l ++ body pr ++ map ASTerminal w).
Inductive rderives : list ast_symbol -> list ast_symbol -> Prop :=
| rd_refl : forall l, rderives l l
| rd_step : forall l m r, rderives l m -> rstep m r -> rderives l r.

(** Every symbol of every right-hand side derives a string of tokens. *)
Definition productive_symbols : Prop :=
  forall n p pr s, uproduction nts n p = Some pr -> In s (body pr) -> exists w, uderives nts [s] (map ASTerminal w).

Variable S : string.   (* the start symbol *)

(** [alpha lhs w] is a right-sentential form ([None]: the augmented start symbol). *)
Definition right_sentential (alpha : list ast_symbol) (lhs : option string) (w : list string) : Prop :=
  match lhs with
  | None => alpha = [] /\ w = []
  | Some n => rderives [ASNonTerminal S] (alpha ++ ASNonTerminal n :: map ASTerminal w)
  end.

(** Knuth 1965: what to reduce in a right-sentential form is determined by what is on its left and one token. *)
Definition knuth_lr1 : Prop :=
  forall alpha a p beta w gamma b q delta x y,
    right_sentential alpha a w -> urhs nts S a p = Some beta ->
    right_sentential gamma b x -> urhs nts S b q = Some delta ->
    gamma ++ delta ++ map ASTerminal x = alpha ++ beta ++ map ASTerminal y -> hd_error w = hd_error y ->
    gamma = alpha /\ b = a /\ q = p /\ x = y.

(** LR(1) for the start symbol [S], by valid items: the condition of [ulr1_grammar] for one entry point. *)
Definition items_lr1 : Prop :=
  forall gamma,
    (forall a p b q la, ulr1_reduces nts S gamma a p la -> ulr1_reduces nts S gamma b q la -> a = b /\ p = q) /\
    (forall a p t, ulr1_reduces nts S gamma a p (Some t) -> ulr1_shifts nts S gamma t -> False).

(** FOLLOW: [t] ([None]: the end) can come after [n] in a sentential form. *)
Definition ufollow (n : option string) (t : option string) : Prop :=
  match n with
  | None => t = None
  | Some n => exists l r, uderives nts [ASNonTerminal S] (l ++ ASNonTerminal n :: r) /\ uin_first nts r None t
  end.

(** LR(0) items: lookaheads are arbitrary. *)
Definition lr0_valid (gamma : list ast_symbol) (lhs : option string) (p k : nat) : Prop :=
  exists la, uvalid_by nts (fun _ _ _ => True) S gamma lhs p k la.
Definition lr0_complete (gamma : list ast_symbol) (lhs : option string) (p : nat) : Prop :=
  exists l, urhs nts S lhs p = Some l /\ lr0_valid gamma lhs p (List.length l).
Definition lr0_shifts (gamma : list ast_symbol) (t : string) : Prop :=
  exists lhs p k l, lr0_valid gamma lhs p k /\ urhs nts S lhs p = Some l /\ nth_error l k = Some (ASTerminal t).

(** SLR(1): LR(0) items and FOLLOW sets. *)
Definition slr1 : Prop :=
  forall gamma,
    (forall a p b q t, lr0_complete gamma a p -> ufollow a t -> lr0_complete gamma b q -> ufollow b t -> a = b /\ p = q) /\
    (forall a p t, lr0_complete gamma a p -> ufollow a (Some t) -> lr0_shifts gamma t -> False).

(** LALR(1): the lookaheads of all strings with the same LR(0) items are put together. *)
Definition same_lr0 (gamma gamma' : list ast_symbol) : Prop := forall lhs p k, lr0_valid gamma lhs p k <-> lr0_valid gamma' lhs p k.
Definition lalr1 : Prop :=
  forall gamma gamma', same_lr0 gamma gamma' ->
    (forall a p b q la, ulr1_reduces nts S gamma a p la -> ulr1_reduces nts S gamma' b q la -> a = b /\ p = q) /\
    (forall a p t, ulr1_reduces nts S gamma a p (Some t) -> ulr1_shifts nts S gamma' t -> False).

(** LL(1): one token decides between the productions of a non-terminal. *)
Definition ll1 : Prop :=
  forall n p q l l' la la' t, urhs nts S (Some n) p = Some l -> urhs nts S (Some n) q = Some l' ->
    ufollow (Some n) la -> ufollow (Some n) la' -> uin_first nts l la t -> uin_first nts l' la' t -> p = q.
End LrSpec.
