(** Processes exchanging messages, and broadcast and reduce.  include/TAT/mpi.hpp:142-248.
    The MPI runtime: messages from one process to another arrive in the order sent; MPI_Send may return at once (the message is stored) or
    wait until the receiver is there; which of the two is up to the runtime.  A value is received as it was sent (dumping and loading is C28).
    Ranks are unbounded naturals; an invalid root may be negative, hence Z. *)
From Coq Require Import List Bool Arith ZArith String.
From Verif Require Import Base.Outcome Model.Lazy.
Import ListNotations.

Section Mpi.
  Context {V A : Type}.
  (** what a process still has to do: mpi_t::send, mpi_t::receive, or it has finished *)
  Inductive prog := Send (destination : nat) (value : V) (k : prog) | Receive (source : nat) (k : V -> prog) | Stop (r : res A).

  (** queues: messages under way, by source and destination *)
  Record net := mkNet { procs : list prog; queues : list (list (list V)) }.
  Definition messages (n : net) (p d : nat) : option (list V) := match nth_error (queues n) p with Some row => nth_error row d | None => None end.
  Definition put (p d : nat) (l : list V) (q : list (list (list V))) : list (list (list V)) := update p (update d (fun _ => l)) q.
  Definition now (p : nat) (k : prog) (l : list prog) : list prog := update p (fun _ => k) l.

  Inductive transition (n : net) : net -> Prop :=
  | t_send : forall p d v k q, nth_error (procs n) p = Some (Send d v k) -> messages n p d = Some q ->
      transition n (mkNet (now p k (procs n)) (put p d (q ++ [v]) (queues n)))
  | t_take : forall p s k v q, nth_error (procs n) p = Some (Receive s k) -> messages n s p = Some (v :: q) ->
      transition n (mkNet (now p (k v) (procs n)) (put s p q (queues n)))
  | t_meet : forall p d v k k', nth_error (procs n) p = Some (Send d v k) -> nth_error (procs n) d = Some (Receive p k') -> messages n p d = Some [] ->
      transition n (mkNet (now p k (now d (k' v) (procs n))) (queues n)).
  (** the steps a runtime that stores nothing can still take *)
  Inductive prompt (n : net) : net -> Prop :=
  | p_take : forall p s k v q, nth_error (procs n) p = Some (Receive s k) -> messages n s p = Some (v :: q) ->
      prompt n (mkNet (now p (k v) (procs n)) (put s p q (queues n)))
  | p_meet : forall p d v k k', nth_error (procs n) p = Some (Send d v k) -> nth_error (procs n) d = Some (Receive p k') -> messages n p d = Some [] ->
      prompt n (mkNet (now p k (now d (k' v) (procs n))) (queues n)).

  (** size processes at the beginning of their programs, nothing under way *)
  Definition launch (size : nat) (program : nat -> prog) : net := mkNet (map program (seq 0 size)) (repeat (repeat [] size) size).

  Definition valid_root (root : Z) (size : nat) : bool := (0 <=? root)%Z && (root <? Z.of_nat size)%Z.
  Definition fake_rank (size rank root : nat) : nat := (size + rank - root) mod size.
  Definition real_rank (size fake root : nat) : nat := (fake + root) mod size.

  (** mpi_t::broadcast, 179-211; k: what the process does with the result *)
  Definition broadcast (size rank : nat) (root : Z) (value : V) (k : V -> prog) : prog :=
    if Nat.eqb size 1 then k value
    else if negb (valid_root root size) then Stop (tat_error "Invalid root rank when mpi broadcast")
    else
      let root := Z.to_nat root in
      let this := fake_rank size rank root in
      let to_sons (result : V) : prog :=
        let left := this * 2 + 1 in
        let right := this * 2 + 2 in
        let rest := if Nat.ltb right size then Send (real_rank size right root) result (k result) else k result in
        if Nat.ltb left size then Send (real_rank size left root) result rest else rest in
      if negb (Nat.eqb this 0) then Receive (real_rank size ((this - 1) / 2) root) to_sons else to_sons value.

  (** mpi_t::reduce, 213-248.  None: the default-constructed [Type result] *)
  Definition reduce (size rank : nat) (root : Z) (function : V -> V -> V) (value : V) (k : option V -> prog) : prog :=
    if Nat.eqb size 1 then k (Some value)
    else if negb (valid_root root size) then Stop (tat_error "Invalid root rank when mpi reduce")
    else
      let root := Z.to_nat root in
      let this := fake_rank size rank root in
      let left := this * 2 + 1 in
      let right := this * 2 + 2 in
      let to_father (result : option V) : prog :=
        if negb (Nat.eqb this 0) then
          let father := real_rank size ((this - 1) / 2) root in
          if Nat.ltb left size then match result with Some r => Send father r (k result) | None => Stop UB end
          else Send father value (k result)
        else k result in
      let from_right (result : option V) : prog :=
        if Nat.ltb right size then
          Receive (real_rank size right root) (fun y => match result with Some r => to_father (Some (function r y)) | None => Stop UB end)
        else to_father result in
      if Nat.ltb left size then Receive (real_rank size left root) (fun x => from_right (Some (function value x))) else from_right None.
End Mpi.
Arguments prog : clear implicits.
Arguments net : clear implicits.
