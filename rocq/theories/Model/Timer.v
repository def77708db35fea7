(** Timers (compiled with TAT_USE_TIMER).  include/TAT/timer.hpp:31-122.  Clock readings are integers (ticks).  Printing at
    destruction is not modelled. *)
From Coq Require Import List Arith ZArith.
From Verif Require Import Base.Outcome.
Import ListNotations.

(** timer_stack (timer.hpp:50-66): innermost entry first, each with its start and the time of what ran inside;
    per timer: timer_total_count and timer_self_count (timer.hpp:78-90) *)
Record timers := mkTimers { frames : list (nat * Z * Z); total_count : nat -> Z; self_count : nat -> Z }.

(** constructor of timer_stack_t, timer.hpp:52-54.  The frames also carry the timer (member owner of the guard, timer.hpp:100);
    the bottom frame has none, 0 is written there *)
Definition start_program (now : Z) : timers := mkTimers [(0, now, 0%Z)] (fun _ => 0%Z) (fun _ => 0%Z).

Definition add_to (f : nat -> Z) (t : nat) (x : Z) : nat -> Z := fun u => if Nat.eqb u t then (f u + x)%Z else f u.

(** timer_guard(owner), timer.hpp:102-104 *)
Definition open_guard (st : timers) (t : nat) (now : Z) : timers :=
  mkTimers ((t, now, 0%Z) :: frames st) (total_count st) (self_count st).

(** ~timer_guard(), timer.hpp:106-113; top() of an empty stack is undefined behaviour *)
Definition close_guard (st : timers) (now : Z) : res timers :=
  match frames st with
  | (t, start, children) :: (u, start', children') :: rest =>
      let this := (now - start)%Z in
      Ok (mkTimers ((u, start', (children' + this)%Z) :: rest) (add_to (total_count st) t this) (add_to (self_count st) t (this - children)%Z))
  | _ => UB
  end.

Inductive event : Type := Open (t : nat) (now : Z) | Close (now : Z).
Definition timer_step (st : timers) (e : event) : res timers :=
  match e with Open t now => Ok (open_guard st t now) | Close now => close_guard st now end.
Definition run_timers (st : timers) (es : list event) : res timers := foldM timer_step es st.
