(** Address ranges. *)
From Coq Require Import List ZArith.
From Verif Require Import Base.Outcome Model.Arena.
Import ListNotations.
Open Scope Z_scope.

(** [p, p+n) and [q, q+m) have no byte in common *)
Definition apart (p n q m : Z) : Prop := forall x, ~ (p <= x < p + n /\ q <= x < q + m).
Definition inside (p n q m : Z) : Prop := q <= p /\ p + n <= q + m.

(** memory the arena may use: its initial buffer and the buffers it holds *)
Definition owned (a : arena) : list (Z * Z) := (initial a, initial_size a) :: held a.

(** a fresh piece of memory of n bytes at p, as an allocator returns it: aligned for every ordinary type, inside the address
    space, apart from everything already owned *)
Definition fresh_memory (a : arena) (p n : Z) : Prop :=
  p mod 16 = 0 /\ 0 <= p /\ p + n <= word /\ Forall (fun b => apart p n (fst b) (snd b)) (owned a).

(** requests the property is about: at least one byte, an alignment of 1, 2, 4, 8 or 16 *)
Definition ordinary (bytes alignment : Z) : Prop := 0 < bytes < word /\ In alignment [1; 2; 4; 8; 16].

(** whenever the arena asks upstream during the history, the answer is what an allocator returns (or the request fails) *)
Fixpoint honest (s : session) (rs : list request) : Prop :=
  match rs with
  | [] => True
  | r :: rs' =>
      match r with
      | Alloc bytes alignment answer => ordinary bytes alignment /\
          forall p n, answer = Some p -> increase_to 64 (next_size (ar s)) bytes = Ok n -> fst (remaining (ar s) alignment) < bytes -> fresh_memory (ar s) p n
      | Release => True
      end /\ forall s', serve s r = Ok s' -> honest s' rs'
  end.
