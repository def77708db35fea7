(** C47: timers account for all time exactly once.  [section], [events], [duration], [own_time]: Spec/Timing.v. *)
From Coq Require Import List Arith ZArith.
From Verif Require Import Base.Outcome Model.Timer Spec.Timing Proof.TimerFacts.
Import ListNotations.

(** After any nested history the total of a timer is the time between opening and closing of its sections, its self count is that time
    minus the times of the sections opened directly inside. *)
Theorem C47_timers : forall start l, exists st, run_timers (start_program start) (flat_map events l) = Ok st /\
  frames st = [(0, start, zsum (map duration l))] /\
  forall t, total_count st t = sum_of duration t (flat_map all_sections l) /\ self_count st t = sum_of own_time t (flat_map all_sections l).
Proof. exact timers_account. Qed.
Print Assumptions C47_timers.
(** the self counts of all timers together are the time spent inside timed sections *)
Theorem C47_exactly_once : forall start l ts st, run_timers (start_program start) (flat_map events l) = Ok st ->
  NoDup ts -> (forall s, In s (flat_map all_sections l) -> In (timer_of s) ts) ->
  zsum (map (self_count st) ts) = zsum (map duration l).
Proof. exact self_partition. Qed.
Print Assumptions C47_exactly_once.
(** a section of timer 1 from 10 to 100 with two sections of timer 2 and a recursive call of timer 1 in it *)
Example C47_example :
  let l := [Section_ 1 10 100 [Section_ 2 20 30 []; Section_ 1 40 80 [Section_ 2 50 55 []]]; Section_ 2 110 111 []] in
  match run_timers (start_program 0%Z) (flat_map events l) with
  | Ok st => total_count st 1 = 130%Z /\ self_count st 1 = 75%Z /\ total_count st 2 = 16%Z /\ self_count st 2 = 16%Z /\ zsum (map (self_count st) [1; 2]) = 91%Z
  | _ => False
  end.
Proof. repeat split; reflexivity. Qed.
