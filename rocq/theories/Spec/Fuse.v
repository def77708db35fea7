(** Merging several edges into one, coordinate by coordinate.
    The merged edge has, for every total charge, the segments of the charge tuples with that total laid out one after
    the other in dictionary order; inside a segment indices are row-major. *)
From Coq Require Import List Bool Arith.
From Verif Require Import Base.SMap Model.Symmetry Spec.Blocks.
Import ListNotations.

Section Fuse.
  Context {S : Type} {SS : Sym S}.
  Notation entry := (S * nat)%type.

  Definition volume (t : list entry) : nat := fold_right Nat.mul 1 (map snd t).
  Definition total (t : list entry) : S := ssum (map fst t).

  (** dimension of the charge s on the merged edge *)
  Definition merged_dim (maps : list (list entry)) (s : S) : nat :=
    list_sum (map volume (filter (fun t => eqb (total t) s) (tuples maps))).
  (** where the segment of the charges [key] starts *)
  Definition merged_offset (maps : list (list entry)) (key : list S) : nat :=
    list_sum (map volume (filter (fun t => eqb (total t) (ssum key) && ltb (map fst t) key) (tuples maps))).

  (** row-major position of an index tuple: ((i1*d2 + i2)*d3 + i3) ... *)
  Definition flat_index (dims idx : list nat) : nat :=
    fold_left (fun acc di => acc * fst di + snd di) (combine dims idx) 0.
  (** dimensions of the segments a key picks *)
  Definition dims_in (maps : list (list entry)) (key : list S) : list nat :=
    map (fun ms => match mfind (snd ms) (fst ms) with Some d => d | None => 0 end) (combine maps key).

  (** the coordinate on the merged edge of coordinates on the original edges *)
  Definition fuse (maps : list (list entry)) (pt : list entry) : entry :=
    (total pt, merged_offset maps (map fst pt) + flat_index (dims_in maps (map fst pt)) (map snd pt)).
End Fuse.
