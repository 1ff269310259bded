(** * GSpec: specification vocabulary for lowered grammars.

    Textbook notions only: derivations, parse trees and their yields, evaluation of parse trees,
    what an iterator produces.  Nothing here refers to FIRST tables, items, states or tables. *)
From Verif Require Export Runtime.

(** ** Derivations *)
Section Derivations.
Context {A : Type}.
Variable g : grammar A.

(** One rewriting step: replace a non-terminal by the right-hand side of one of its productions. *)
Inductive dstep : list symbol -> list symbol -> Prop :=
| dstep_intro : forall l n p pr r,
    get_production g n p = Some pr -> dstep (l ++ NT n :: r) (l ++ rhs pr ++ r).

Inductive derives : list symbol -> list symbol -> Prop :=
| derives_refl : forall l, derives l l
| derives_step : forall l m r, dstep l m -> derives m r -> derives l r.

(** The classical nullable and FIRST notions. *)
Definition derives_empty (l : list symbol) : Prop := derives l [].
Definition derives_first (l : list symbol) (t : nat) : Prop := exists r, derives l (T t :: r).

(** [n] derives some string of terminals. *)
Definition productive (n : nat) : Prop := exists w, derives [NT n] (map T w).

(** No empty production. *)
Definition eps_free : Prop := forall n p pr, get_production g n p = Some pr -> p_symbols pr <> [].
End Derivations.

(** ** Parse trees *)
Inductive tree (Tok : Type) : Type :=
| Leaf (tok : Tok)
| Node (nt p : nat) (kids : list (tree Tok)).
Arguments Leaf {Tok} tok. Arguments Node {Tok} nt p kids.

Section Trees.
Context {A Tok V W : Type}.
Variable g : grammar A.
Variable class : Tok -> option nat.          (* the terminal of a token *)
Variable fields : Tok -> list V.             (* the values a token carries *)
Variable sem : A -> list (string * bval V) -> W -> option (V * W).

(** [wf_tree t X]: [t] is a parse tree with root [X]. *)
Inductive wf_tree : tree Tok -> symbol -> Prop :=
| wf_leaf : forall tok t, class tok = Some t -> wf_tree (Leaf tok) (T t)
| wf_node : forall nt p kids pr,
    get_production g nt p = Some pr -> wf_forest kids (rhs pr) -> wf_tree (Node nt p kids) (NT nt)
with wf_forest : list (tree Tok) -> list symbol -> Prop :=
| wf_nil : wf_forest [] []
| wf_cons : forall t ts X Xs, wf_tree t X -> wf_forest ts Xs -> wf_forest (t :: ts) (X :: Xs).

Fixpoint yield (t : tree Tok) : list Tok :=
  match t with
  | Leaf tok => [tok]
  | Node _ _ kids => flat_map yield kids
  end.
Definition yields (ts : list (tree Tok)) : list Tok := flat_map yield ts.

(** The variables in scope of an action: every named symbol bound to the value of its own child. *)
Fixpoint bindings (syms : list bound_symbol) (vs : list (bval V)) : list (string * bval V) :=
  match syms, vs with
  | s :: syms', v :: vs' =>
      match bs_binder s with
      | Some x => (nm_name x, v) :: bindings syms' vs'
      | None => bindings syms' vs'
      end
  | _, _ => []
  end.

(** Evaluation of a forest, left to right, threading the world. *)
Section EvalList.
Variable ev : tree Tok -> W -> option (bval V * W).
Fixpoint eval_list (ts : list (tree Tok)) (w : W) : option (list (bval V) * W) :=
  match ts with
  | [] => Some ([], w)
  | t :: ts' =>
      match ev t w with
      | None => None
      | Some (v, w1) =>
          match eval_list ts' w1 with
          | None => None
          | Some (vs, w2) => Some (v :: vs, w2)
          end
      end
  end.
End EvalList.

(** Evaluation of a tree: first the children, then the production's action. [None]: an action
    panicked. *)
Fixpoint eval_tree (t : tree Tok) (w : W) : option (bval V * W) :=
  match t with
  | Leaf tok => Some (BTok (fields tok), w)
  | Node nt p kids =>
      match get_production g nt p with
      | None => None
      | Some pr =>
          match eval_list eval_tree kids w with
          | None => None
          | Some (vs, w1) =>
              match sem (p_action pr) (bindings (p_symbols pr) vs) w1 with
              | None => None
              | Some (v, w2) => Some (BVal v, w2)
              end
          end
      end
  end.
Definition eval_forest : list (tree Tok) -> W -> option (list (bval V) * W) := eval_list eval_tree.
End Trees.

(** Induction over trees and forests together. *)
Scheme wf_tree_mut := Induction for wf_tree Sort Prop
  with wf_forest_mut := Induction for wf_forest Sort Prop.
Combined Scheme wf_tree_forest_ind from wf_tree_mut, wf_forest_mut.

(** ** Iterators *)
Section Iterators.
Context {Tok E I : Type}.
Variable next : I -> option (Tok + E) * I.

(** [feeds it toks it']: [next] called [length toks] times from [it] returns [Ok] of the [toks] in
    order and leaves the iterator at [it']. *)
Inductive feeds : I -> list Tok -> I -> Prop :=
| feeds_nil : forall it, feeds it [] it
| feeds_cons : forall it tok it1 toks it2,
    next it = (Some (inl tok), it1) -> feeds it1 toks it2 -> feeds it (tok :: toks) it2.
End Iterators.
