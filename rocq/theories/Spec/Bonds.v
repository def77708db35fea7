(** Sites, bonds and terms on the square lattice. *)
From Coq Require Import List ZArith.
Import ListNotations.
Open Scope Z_scope.

Definition adjacent (a b : Z * Z) : Prop := Z.abs (fst a - fst b) + Z.abs (snd a - snd b) = 1.
Definition inside (M N : Z) (a : Z * Z) : Prop := 0 <= fst a < M /\ 0 <= snd a < N.
(** a term acting on one site or on two neighbours *)
Definition local_term (p : list (Z * Z)) : Prop := (exists a, p = [a]) \/ exists a b, p = [a; b] /\ adjacent a b.
(** no bond is listed in both orientations *)
Definition oriented (terms : list (list (Z * Z))) : Prop := forall a b, In [a; b] terms -> In [b; a] terms -> a = b.
Definition share_no_site (p q : list (Z * Z)) : Prop := forall s, In s p -> ~ In s q.
(** a sweep through groups of terms: forward, then backward, a number of times *)
Fixpoint sweeps {A} (steps : nat) (groups : list (list A)) : list A :=
  match steps with O => [] | S steps => concat groups ++ concat (rev groups) ++ sweeps steps groups end.
