(** Nested timed sections. *)
From Coq Require Import List Arith ZArith.
From Verif Require Import Model.Timer.
Import ListNotations.

(** a section timed by timer t, from start to stop, with the sections opened directly inside it *)
Inductive section : Type := Section_ (t : nat) (start stop : Z) (inside : list section).

(** the guards constructed and destroyed *)
Fixpoint events (s : section) : list event :=
  match s with Section_ t a b inside => Open t a :: flat_map events inside ++ [Close b] end.

Definition duration (s : section) : Z := match s with Section_ _ a b _ => (b - a)%Z end.
Definition zsum (l : list Z) : Z := fold_right Z.add 0%Z l.
(** time of the section not spent in the sections opened directly inside *)
Definition own_time (s : section) : Z := match s with Section_ _ a b inside => ((b - a) - zsum (map duration inside))%Z end.
Definition timer_of (s : section) : nat := match s with Section_ t _ _ _ => t end.
(** a section and all sections inside it, at any depth *)
Fixpoint all_sections (s : section) : list section :=
  match s with Section_ _ _ _ inside => s :: flat_map all_sections inside end.
(** sum of a quantity over the sections of one timer *)
Definition sum_of (f : section -> Z) (t : nat) (l : list section) : Z := zsum (map f (filter (fun s => Nat.eqb (timer_of s) t) l)).
