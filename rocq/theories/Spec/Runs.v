(** What one can ask of a message-passing program, and the combining tree of a reduction. *)
From Coq Require Import List Arith ZArith.
From Verif Require Import Base.Outcome Model.Mpi.
Import ListNotations.

Section Runs.
  Context {V A : Type}.
  (** executions of a given length *)
  Inductive execution (n : net V A) : nat -> net V A -> Prop :=
  | e_start : execution n 0 n
  | e_step : forall l m m', execution n l m -> transition m m' -> execution n (S l) m'.
  (** whatever the interleaving and the buffering: executions do not go on for ever, they never get stuck - not even if messages are no
      longer stored from some point on - and they can only end in [final] *)
  Definition always_reaches (start final : net V A) : Prop :=
    exists bound, forall l m, execution start l m -> l <= bound /\ (m = final \/ exists m', prompt m m').
  (** all processes have finished, process r with result [result r], and no message is left over *)
  Definition finished (size : nat) (result : nat -> prog V A) : net V A := mkNet (map result (seq 0 size)) (repeat (repeat [] size) size).
End Runs.

Section Tree.
  Context {V : Type} (size : nat) (op : V -> V -> V) (value : nat -> V).
  (** [combined f ranks v]: v is the combination, along the binary tree below node f, of the values of the listed nodes, each once *)
  Inductive combined : nat -> list nat -> V -> Prop :=
  | leaf : forall f, size <= 2 * f + 1 -> combined f [f] (value f)
  | one_son : forall f rs x, 2 * f + 1 < size -> size <= 2 * f + 2 -> combined (2 * f + 1) rs x -> combined f (f :: rs) (op (value f) x)
  | two_sons : forall f rs x rs' y, 2 * f + 2 < size -> combined (2 * f + 1) rs x -> combined (2 * f + 2) rs' y ->
      combined f (f :: rs ++ rs') (op (op (value f) x) y).
End Tree.

Section Rounds.
  Context {V : Type}.
  (** a program of broadcasts one after the other: each round has a root, and what each process offers may depend on the values received so far *)
  Fixpoint broadcasts (size rank : nat) (rounds : list (Z * (list V -> nat -> V))) (seen : list V) : prog V (list V) :=
    match rounds with
    | [] => Stop (Ok seen)
    | (root, val) :: rounds => broadcast size rank root (val seen rank) (fun v => broadcasts size rank rounds (seen ++ [v]))
    end.
  (** the values the roots offer in turn *)
  Fixpoint announced (rounds : list (Z * (list V -> nat -> V))) (seen : list V) : list V :=
    match rounds with
    | [] => seen
    | (root, val) :: rounds => announced rounds (seen ++ [val seen (Z.to_nat root)])
    end.
End Rounds.
