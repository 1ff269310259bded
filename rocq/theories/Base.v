(** * Base: results, panics, association maps, insertion-ordered sets.

    Shared vocabulary of the model.  No parsegen-specific logic here. *)
From Coq Require Export List Arith Bool Lia String Permutation.
From Coq Require Import NArith.
Export ListNotations.

(** Everything that can make the proc macro panic (each constructor cites its [panic!], [todo!],
    [assert!], [unwrap] or [expect]). *)
Inductive panic : Type :=
| PDupTerminal (s : string)         (* src/lower.rs:23 *)
| PUnknownNonTerminal (s : string)  (* src/lower.rs:111 *)
| PUnknownTerminal (s : string)     (* src/lower.rs:123 *)
| PRepeatUnsupported                (* src/lower.rs:130 *)
| PFallibleUnsupported              (* src/lower.rs:90 *)
| PMissingNonTerminalIndex          (* src/lower.rs:86, unwrap *)
| PAssertOneProduction              (* src/lr1.rs:253 and 380, assert_eq! *)
| PShiftShift (s : nat) (t : nat) (old new : nat)              (* src/lr_common.rs:65-71 *)
| PAcceptShift (s : nat) (t : nat) (new : nat)                 (* src/lr_common.rs:87-92 *)
| PShiftReduce (s : nat) (t : option nat) (old nt p : nat)     (* src/lr_common.rs:117-124 *)
| PReduceReduce (s : nat) (t : option nat) (nt0 p0 nt p : nat) (* src/lr_common.rs:127-135 *)
| PAcceptReduce (s : nat) (t : option nat) (nt p : nat)        (* src/lr_common.rs:138-144 *)
| PTryFrom                          (* every [uN::try_from(..).unwrap()] *)
| PIndex                            (* every slice/Vec index out of bounds *)
| PAssertTable                      (* src/lr_codegen.rs:299 and 305, assert_eq! *)
| PRawName                          (* src/lr_codegen.rs:85, [syn::Ident::new] of a raw identifier; the message names it *)
| PDupState                         (* src/lib.rs:35 *)
| PDupToken                         (* src/lib.rs:42 *)
| PNoToken.                         (* src/lib.rs:53, expect *)

(** Result of an expansion-time computation.  [OutOfFuel] is the model's artefact for the unbounded
    [while] loops: it never denotes a result of the real code, and theorem
    [expansion_terminates] shows that enough fuel always exists.
    Serves every function the macro runs (src/lib.rs:23-60). *)
Inductive res (X : Type) : Type :=
| Ok (x : X)
| Panic (p : panic)
| OutOfFuel.
Arguments Ok {X} x.
Arguments Panic {X} p.
Arguments OutOfFuel {X}.

(** Sequencing: a panic aborts the macro (src/lib.rs:23-60). *)
Definition bind {X Y} (r : res X) (f : X -> res Y) : res Y :=
  match r with Ok x => f x | Panic p => Panic p | OutOfFuel => OutOfFuel end.

Declare Scope res_scope.
Notation "'let*' x ':=' r 'in' k" := (bind r (fun x => k))
  (at level 200, x pattern, r at level 100, k at level 200) : res_scope.
Open Scope res_scope.

(** A [for] loop whose body may panic. E.g. src/lib.rs:30-51, src/lower.rs:21-25, src/lr1.rs:352-391. *)
Fixpoint foldM {X B} (f : B -> X -> res B) (l : list X) (b : B) : res B :=
  match l with
  | [] => Ok b
  | x :: l' => let* b' := f b x in foldM f l' b'
  end.

(** [iter.map(f).collect()] where [f] may panic. E.g. src/codegen.rs:34-119, src/lr_codegen.rs:79-119. *)
Fixpoint mapM {X Y} (f : X -> res Y) (l : list X) : res (list Y) :=
  match l with
  | [] => Ok []
  | x :: l' => let* y := f x in let* ys := mapM f l' in Ok (y :: ys)
  end.

(** [Iterator::enumerate]. src/codegen.rs:36, 49, 157, 189, 281; src/grammar.rs:194. *)
Definition enumerate {X} (l : list X) : list (nat * X) := combine (seq 0 (List.length l)) l.

(** [v[i] = f(v[i])] for an in-range [i]; out of range it does nothing (the Rust code would panic;
    callers are shown to be in range). src/first.rs:45-57, src/grammar.rs:169-173. *)
Fixpoint update_nth {X} (i : nat) (f : X -> X) (l : list X) : list X :=
  match l, i with
  | [], _ => []
  | x :: l', 0 => f x :: l'
  | x :: l', S i' => x :: update_nth i' f l'
  end.

(** FxHashMap (src/collections.rs:3): association list with at most one entry per key; [map_insert]
    replaces in place or appends, so that the list order is the insertion order.  Where the real code
    iterates over a map, the model applies a [hash_order] oracle to this list. *)
Fixpoint map_get {K V} (eqb : K -> K -> bool) (k : K) (m : list (K * V)) : option V :=
  match m with
  | [] => None
  | (k', v) :: m' => if eqb k k' then Some v else map_get eqb k m'
  end.

(** [Map::insert] (src/collections.rs:3) *)
Fixpoint map_insert {K V} (eqb : K -> K -> bool) (k : K) (v : V) (m : list (K * V)) : list (K * V) :=
  match m with
  | [] => [(k, v)]
  | (k', v') :: m' => if eqb k k' then (k', v) :: m' else (k', v') :: map_insert eqb k v m'
  end.

(** FxHashSet (src/collections.rs:5): duplicate-free list in insertion order. *)
Definition set_mem {X} (eqb : X -> X -> bool) (x : X) (s : list X) : bool := existsb (eqb x) s.
(** [Set::insert] (src/collections.rs:5) *)
Definition set_add {X} (eqb : X -> X -> bool) (x : X) (s : list X) : list X :=
  if set_mem eqb x s then s else s ++ [x].

(** [uN::try_from(i).unwrap()] for N = 16, 32. src/codegen.rs:106; src/lr_codegen.rs:316-322, 324. *)
Definition u16_try_from (n : nat) : res nat :=
  if (N.of_nat n <? 65536)%N then Ok n else Panic PTryFrom.
(** src/grammar.rs:34, 47, 126, 309; src/lr_codegen.rs:82, 312, 365. *)
Definition u32_try_from (n : nat) : res nat :=
  if (N.of_nat n <? 4294967296)%N then Ok n else Panic PTryFrom.

(** [Option<TerminalIdx>: Eq] (src/grammar.rs:38, the derive) *)
Definition opt_nat_eqb (a b : option nat) : bool :=
  match a, b with
  | None, None => true
  | Some x, Some y => Nat.eqb x y
  | _, _ => false
  end.
