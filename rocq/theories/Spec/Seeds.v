(** Sequences of random numbers. *)
From Coq Require Import List NArith.
Local Open Scope N_scope.

(** the number drawn after k others, by a generator whose state is the last number drawn *)
Definition drawn (next : N -> N) (state : N) (k : nat) : N := Nat.iter (S k) next state.
(** no two of the processes 0, ..., size - 1 ever draw the same number at the same time *)
Definition never_the_same (next : N -> N) (size : nat) (state : nat -> N) : Prop :=
  forall r r' k, (r < size)%nat -> (r' < size)%nat -> r <> r' -> drawn next (state r) k <> drawn next (state r') k.
