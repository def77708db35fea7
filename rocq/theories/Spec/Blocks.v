(** Charge tuples and coordinates, stated directly on lists of (charge, dimension) pairs. *)
From Coq Require Import List Arith.
Import ListNotations.

(** all ways of picking one element from each list, in dictionary order *)
Fixpoint tuples {A : Type} (maps : list (list A)) : list (list A) :=
  match maps with
  | [] => [[]]
  | m :: ms => flat_map (fun x => map (cons x) (tuples ms)) m
  end.

Section Blocks.
  Context {S : Type}.

  (** [choice maps key n]: key picks one charge per edge and n is the product of the chosen dimensions *)
  Inductive choice : list (list (S * nat)) -> list S -> nat -> Prop :=
  | choice_nil : choice [] [] 1
  | choice_cons : forall m ms s d key n,
      In (s, d) m -> choice ms key n -> choice (m :: ms) (s :: key) (d * n).

  (** [in_range maps pt]: pt picks one (charge, index) per edge with the index below the segment's dimension *)
  Inductive in_range : list (list (S * nat)) -> list (S * nat) -> Prop :=
  | in_range_nil : in_range [] []
  | in_range_cons : forall m ms s i d pt,
      In (s, d) m -> i < d -> in_range ms pt -> in_range (m :: ms) ((s, i) :: pt).
End Blocks.
