(** Selections of singular values. *)
From Coq Require Import List Bool Arith.
Import ListNotations.

Section Truncate.
  Context {S V : Type}.
  (** a strict total order *)
  Record strict_order (greater : V -> V -> bool) : Prop := {
    so_irrefl : forall x, greater x x = false;
    so_trans : forall x y z, greater x y = true -> greater y z = true -> greater x z = true;
    so_total : forall x y, x = y \/ greater x y = true \/ greater y x = true }.

  Definition descending (greater : V -> V -> bool) (l : list V) : Prop :=
    forall i j x y, i <= j -> nth_error l i = Some x -> nth_error l j = Some y -> greater y x = false.

  Definition sum_nat (l : list nat) : nat := fold_right plus 0 l.
  Definition positives (vzero : V) (greater : V -> V -> bool) (l : list V) : nat := length (filter (fun x => greater x vzero) l).

  (** keep the first r values of every charge; charges with none left disappear *)
  Definition prefixes (r : S -> nat) (sing : list (S * list V)) : list (S * list V) :=
    filter (fun sv => negb (Nat.eqb (length (snd sv)) 0)) (map (fun sv => (fst sv, firstn (r (fst sv)) (snd sv))) sing).

  (** r keeps n values in all, in each charge at most as many as there are, and no value dropped is larger than one kept *)
  Definition best_selection (greater : V -> V -> bool) (sing : list (S * list V)) (n : nat) (r : S -> nat) : Prop :=
    sum_nat (map (fun sv => r (fst sv)) sing) = n /\
    (forall s l, In (s, l) sing -> r s <= length l) /\
    forall s l t m i j x y, In (s, l) sing -> In (t, m) sing -> i < r s -> r t <= j ->
      nth_error l i = Some x -> nth_error m j = Some y -> greater y x = false.
End Truncate.
