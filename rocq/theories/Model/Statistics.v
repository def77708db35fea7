(** The statistical errors that Markov sampling returns.  include/square/sampling_gradient_lattice.hpp: markov.
    Exact real numbers in place of floating point; a value that is not a number: None. *)
From Coq Require Import List Bool Arith ZArith Reals.
From Verif Require Import Base.Outcome Base.SMap Model.Symmetry Model.Schedule Model.Sampling.
Import ListNotations.

(** result += value, result_square += value * value, 215-216 *)
Fixpoint numbers (values : list (option R)) : option (list R) :=
  match values with
  | [] => Some []
  | Some v :: values => option_map (cons v) (numbers values)
  | None :: _ => None
  end.
Definition sum_of (l : list R) : R := fold_left Rplus l 0%R.
(** value /= total_step, 242; no step: there is no entry *)
Definition mean_of (values : list (option R)) : option R :=
  match numbers values with
  | Some [] | None => None
  | Some l => Some (sum_of l / INR (length l))%R
  end.
(** result_variance_square: (value_square - value * value) / (total_step - 1), 238-247.  One step: 0 / 0 *)
Definition error_square (values : list (option R)) : option R :=
  match numbers values with
  | Some [] | Some [_] | None => None
  | Some l => let n := INR (length l) in let mean := (sum_of l / n)%R in
      Some ((sum_of (map (fun v => v * v) l) / n - mean * mean) / (n - 1))%R
  end.
(** energy_variance_square, 250-257: the sum over the terms of the Hamiltonian; its root, divided by the number of sites, is printed *)
Definition energy_error_square (terms : list (list (option R))) : option R :=
  fold_left (fun sum values => match sum, error_square values with Some s, Some e => Some (s + e)%R | _, _ => None end) terms (Some 0%R).

(** the loop of markov, 190-218, for one observer: the values at the steps.  Sampling.markov is the mean of them *)
Section Values.
  Context {V : Type}.
  Variables (is_zero : V -> bool) (amplitude : configuration -> V) (over : V -> V -> V) (norm : V -> R) (times : V -> V -> V) (part : V -> R).
  Fixpoint markov_values (d : Z) (hamiltonians : list (positions * operator V)) (sequence : list positions) (ps : positions) (op : operator V) (total : nat) (state : configuration * V) : rand (list (option R)) :=
    match total with
    | O => Ret (Ok [])
    | S total =>
        rbind (markov_spin is_zero amplitude over norm d hamiltonians sequence state) (fun state =>
        rbind (Ret (observe is_zero amplitude over times part Rplus 0%R d ps op (fst state) (snd state))) (fun value =>
        rbind (markov_values d hamiltonians sequence ps op total state) (fun values => Ret (Ok (value :: values)))))
    end.
End Values.

(** Es of one step, 192-213: the sum over the terms of the Hamiltonian.  The code adds the elements of all terms one after the other; with exact real numbers that is the sum of the values of the terms *)
Section Energy.
  Context {V : Type}.
  Variables (is_zero : V -> bool) (amplitude : configuration -> V) (over times : V -> V -> V) (part : V -> R).
  Definition step_energy (d : Z) (hamiltonians : list (positions * operator V)) (c : configuration) (ws : V) : res (option R) :=
    foldM (fun (Es : option R) (term : positions * operator V) =>
      bind (observe is_zero amplitude over times part Rplus 0%R d (fst term) (snd term) c ws) (fun value =>
      Ok (match Es, value with Some Es, Some value => Some (Es + value)%R | _, _ => None end))) hamiltonians (Some 0%R).
End Energy.
