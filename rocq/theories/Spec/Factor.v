(** What qr is asked for: which edges go to Q and which to R; sizes of groups of edges. *)
From Coq Require Import String Ascii List Bool Arith.
From Verif Require Import Base.SMap Model.Symmetry Model.Edge Model.Core Spec.Blocks Spec.Fuse Spec.Relabel Spec.Contract.
Import ListNotations.

Section Factor.
  Context {S R : Type} {SS : Sym S}.
  (** 'q' and 'Q': the given names are edges of Q;  'r' and 'R': of R *)
  Definition names_are_of_r (direction : ascii) : bool := (Ascii.eqb direction "r" || Ascii.eqb direction "R")%char.
  Definition known_direction (direction : ascii) : bool :=
    (names_are_of_r direction || Ascii.eqb direction "q" || Ascii.eqb direction "Q")%char.
  Definition r_legs (direction : ascii) (free : list nat) (t : tensor S R) : list nat :=
    filter (fun n => if names_are_of_r direction then member n free else negb (member n free)) (t_names t).
  Definition q_legs (direction : ascii) (free : list nat) (t : tensor S R) : list nat :=
    filter (fun n => if names_are_of_r direction then negb (member n free) else member n free) (t_names t).

  (** several edges of t as one: which charges it has, and their dimensions *)
  Definition maps_in (t : tensor S R) (l : list nat) : list (list (S * nat)) := map (fun n => emap (edge_named (legs_of t) n)) l.
  Definition has_charge (t : tensor S R) (l : list nat) (s : S) : Prop := exists key n, choice (maps_in t l) key n /\ ssum key = s.
  Definition fused_dim (t : tensor S R) (l : list nat) (s : S) : nat := merged_dim (maps_in t l) s.
End Factor.
