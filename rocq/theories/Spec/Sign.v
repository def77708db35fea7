(** Fermionic signs, stated by counting pairs of odd legs whose order is exchanged. *)
From Coq Require Import List Bool Arith.
From Verif Require Import Base.SMap Model.Symmetry.
Import ListNotations.

(** all pairs (x, y) with x before y *)
Fixpoint ordered_pairs {A : Type} (l : list A) : list (A * A) :=
  match l with
  | [] => []
  | x :: l' => map (pair x) l' ++ ordered_pairs l'
  end.

(** a stands before b in l *)
Definition comes_before (l : list nat) (a b : nat) : bool :=
  existsb (fun p => Nat.eqb (fst p) a && Nat.eqb (snd p) b) (ordered_pairs l).

(** number of pairs of odd legs standing in one order in [source] and in the opposite order in [target] *)
Definition exchanged_odd (odd : nat -> bool) (source target : list nat) : nat :=
  length (filter (fun p => odd (fst p) && odd (snd p) && comes_before target (snd p) (fst p)) (ordered_pairs source)).

(** number of pairs of odd legs in a list *)
Definition odd_pairs {A : Type} (odd : A -> bool) (l : list A) : nat :=
  length (filter (fun p => odd (fst p) && odd (snd p)) (ordered_pairs l)).

(** (-1)^n v *)
Definition signed {R : Type} (opp : R -> R) (n : nat) (v : R) : R := if Nat.odd n then opp v else v.

(** is the leg called n odd at these coordinates? *)
Definition leg_odd {S : Type} {SS : Sym S} (pos : list (nat * (S * nat))) (n : nat) : bool :=
  match mfind n pos with Some (s, _) => sodd s | None => false end.
