(** * FollowSpec: what can follow a non-terminal (C77) *)
From Verif Require Export GSpec.

Section Follow.
Context {A : Type}.
Variable g : grammar A.
(** The terminal [t] comes right after [n] in something a non-terminal derives; [None]: [n] comes last in something the
    first non-terminal derives. *)
Definition follows (n : nat) (la : option nat) : Prop :=
  match la with
  | Some t => exists m l r, derives g [NT m] (l ++ NT n :: T t :: r)
  | None => exists l, derives g [NT 0] (l ++ [NT n])
  end.
End Follow.
