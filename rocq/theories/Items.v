(** * Items: LR(1) items (src/lr1.rs:9-16), their derived [Ord], BTreeSets of items and the oracle for
    hash iteration order. *)
From Verif Require Export Grammar.

(** src/lr1.rs:9-16 [LR1Item]; [it_la = None] is end of input *)
Record item : Type := {
  it_nt : nat;
  it_prod : nat;
  it_cursor : nat;
  it_la : option nat
}.

(** [#[derive(PartialEq, Eq)]], src/lr1.rs:9 *)
Definition item_eqb (a b : item) : bool :=
  Nat.eqb (it_nt a) (it_nt b) && Nat.eqb (it_prod a) (it_prod b) &&
  Nat.eqb (it_cursor a) (it_cursor b) && opt_nat_eqb (it_la a) (it_la b).

(** [#[derive(PartialOrd, Ord)]], src/lr1.rs:9: lexicographic in field order, [None < Some _] *)
Definition la_compare (a b : option nat) : comparison :=
  match a, b with
  | None, None => Eq
  | None, Some _ => Lt
  | Some _, None => Gt
  | Some x, Some y => Nat.compare x y
  end.
(** [LR1Item: Ord] (src/lr1.rs:9, the derive): lexicographic in declaration order *)
Definition item_compare (a b : item) : comparison :=
  match Nat.compare (it_nt a) (it_nt b) with
  | Eq => match Nat.compare (it_prod a) (it_prod b) with
          | Eq => match Nat.compare (it_cursor a) (it_cursor b) with
                  | Eq => la_compare (it_la a) (it_la b)
                  | c => c
                  end
          | c => c
          end
  | c => c
  end.

(** [BTreeSet<LR1Item>]: strictly increasing list.  [btree_insert] is [BTreeSet::insert],
    [btree_of_list] is [into_iter().collect::<BTreeSet<_>>()]. src/lr1.rs:80, 166, 190. *)
Fixpoint btree_insert (x : item) (s : list item) : list item :=
  match s with
  | [] => [x]
  | y :: s' => match item_compare x y with
               | Lt => x :: s
               | Eq => s
               | Gt => y :: btree_insert x s'
               end
  end.
(** [collect()] into a [BTreeSet] (src/lr1.rs:166) *)
Definition btree_of_list (l : list item) : list item := fold_left (fun s x => btree_insert x s) l [].

(** Equality of BTreeSets (used for the key comparison of [state_indices], src/lr1.rs:244). *)
Fixpoint items_eqb (a b : list item) : bool :=
  match a, b with
  | [], [] => true
  | x :: a', y :: b' => item_eqb x y && items_eqb a' b'
  | _, _ => false
  end.

(** The iteration order of every FxHashSet/FxHashMap the generator iterates over, as an oracle from
    the contents in insertion order to the iteration order.
    - [ho_terms]: terminal sets (src/first.rs:84, src/lr1.rs:113 and 140)
    - [ho_items]: item sets (src/lr1.rs:83 and 166)
    - [ho_gotos]: transitions of a state (src/lr1.rs:199-201, 385)
    - [ho_entries]: entry points (src/lr_codegen.rs:79-80) *)
Record hash_order : Type := {
  ho_terms : list nat -> list nat;
  ho_items : list item -> list item;
  ho_gotos : list (symbol * nat) -> list (symbol * nat);
  ho_entries : list (nat * nat) -> list (nat * nat)
}.

(** A hash iteration visits every element exactly once.
    Simplification: the order in which a hash map or set (src/collections.rs) is iterated is any permutation. *)
Record hash_order_ok (ho : hash_order) : Prop := {
  hok_terms : forall l, Permutation (ho_terms ho l) l;
  hok_items : forall l, Permutation (ho_items ho l) l;
  hok_gotos : forall l, Permutation (ho_gotos ho l) l;
  hok_entries : forall l, Permutation (ho_entries ho l) l
}.

(** Two concrete orders, used in examples.
    Not part of the code; instances of the oracle above (src/collections.rs). *)
Definition ho_id : hash_order :=
  {| ho_terms := fun l => l; ho_items := fun l => l; ho_gotos := fun l => l; ho_entries := fun l => l |}.
(** As above (src/collections.rs). *)
Definition ho_rev : hash_order :=
  {| ho_terms := @rev nat; ho_items := @rev item; ho_gotos := @rev (symbol * nat);
     ho_entries := @rev (nat * nat) |}.
