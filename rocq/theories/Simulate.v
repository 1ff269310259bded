(** * Simulate: model of [simulate] in src/lr_common.rs

    The function is compiled for the repository's unit tests only ([#[cfg(test)]], src/lr_common.rs:204). *)
From Verif Require Export Lr1.

(** How [simulate] ends: it prints the stack (top first here) and what [input.next()] returns then; or it panics: ["Stuck!"], an
    empty stack, a production that does not exist; or it has not ended after the given number of rounds. *)
Inductive sim : Type := Done (stack : list nat) (rest : list nat) | Stuck | OutOfSteps.

(** src/lr_common.rs:214-250: [loop] *)
Fixpoint simulate {A} (n : nat) (tb : lr_table A) (g : grammar A) (stack : list nat) (a : option nat) (input : list nat) : sim :=
  match n with
  | 0 => OutOfSteps
  | S n' =>
      match stack with
      | [] => Stuck
      | s :: _ =>
          match get_action tb s a with
          | None => Stuck
          | Some Accept => Done stack input
          | Some (Shift t) => simulate n' tb g (t :: stack) (hd_error input) (tl input)
          | Some (Reduce nt p _) =>
              match get_production g nt p with
              | None => Stuck
              | Some pr =>
                  match skipn (List.length (p_symbols pr)) stack with
                  | [] => Stuck
                  | s' :: rest => match get_goto tb s' nt with
                                  | None => Stuck
                                  | Some j => simulate n' tb g (j :: s' :: rest) a input
                                  end
                  end
              end
          end
      end
  end.

(** src/lr_common.rs:205-212, 252-256 *)
Definition simulates {A} (n : nat) (tb : lr_table A) (g : grammar A) (input : list nat) : sim :=
  simulate n tb g [0] (hd_error input) (tl input).
