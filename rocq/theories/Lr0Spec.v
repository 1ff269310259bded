(** * Lr0Spec: the LR(0)-valid items of a grammar (C78) *)
From Verif Require Export GSpec.

Section Lr0.
Context {A : Type}.
Variable g : grammar A.

(** Rightmost sentential forms, when the first rule used is production 0 of the first non-terminal. *)
Inductive rsentential : list symbol -> Prop :=
| rs_start : forall pr, get_production g 0 0 = Some pr -> rsentential (rhs pr)
| rs_step : forall d n p pr w, rsentential (d ++ NT n :: map T w) -> get_production g n p = Some pr ->
    rsentential (d ++ rhs pr ++ map T w).
(** Knuth: the item [n -> alpha . beta] (production [p], [alpha] of length [k]) is valid for [gamma] if [gamma] ends in [alpha]
    and a rightmost derivation replaces an [n] which comes right after the rest, in front of terminals. *)
Definition rightmost_valid (gamma : list symbol) (n p k : nat) : Prop :=
  exists d pr, get_production g n p = Some pr /\ k <= List.length (rhs pr) /\ gamma = d ++ firstn k (rhs pr) /\
    (n = 0 /\ p = 0 /\ d = [] \/ exists w, rsentential (d ++ NT n :: map T w)).

(** The same by induction. *)
Inductive lr0_valid : list symbol -> nat -> nat -> nat -> Prop :=
| l0_start : forall pr, get_production g 0 0 = Some pr -> lr0_valid [] 0 0 0
| l0_predict : forall gamma n p k pr m q pr', lr0_valid gamma n p k -> get_production g n p = Some pr ->
    nth_error (rhs pr) k = Some (NT m) -> get_production g m q = Some pr' -> lr0_valid gamma m q 0
| l0_move : forall gamma n p k pr X, lr0_valid gamma n p k -> get_production g n p = Some pr ->
    nth_error (rhs pr) k = Some X -> lr0_valid (gamma ++ [X]) n p (k + 1).
End Lr0.
