(** Strided array addressing: what a transposition of one block is supposed to do. *)
From Coq Require Import List Arith.
Import ListNotations.

(** offset of an index tuple under strides *)
Fixpoint dot (idx strides : list nat) : nat :=
  match idx, strides with
  | i :: idx', s :: strides' => i * s + dot idx' strides'
  | _, _ => 0
  end.

(** an index tuple below the dimensions *)
Definition index_below (idx dims : list nat) : Prop := Forall2 lt idx dims.

(** axis j of the destination is axis nth j plan of the source *)
Definition permuted {A : Type} (default : A) (plan : list nat) (l : list A) : list A :=
  map (fun j => nth j l default) plan.

(** two mutually inverse permutations of 0 .. rank-1 *)
Definition inverse_plans (rank : nat) (s2d d2s : list nat) : Prop :=
  length s2d = rank /\ length d2s = rank /\
  (forall i, i < rank -> nth i s2d 0 < rank /\ nth (nth i s2d 0) d2s 0 = i) /\
  (forall j, j < rank -> nth j d2s 0 < rank /\ nth (nth j d2s 0) s2d 0 = j).
