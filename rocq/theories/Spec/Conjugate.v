(** Coordinates with all charges negated. *)
From Coq Require Import List.
From Verif Require Import Model.Symmetry.

Definition negated {S : Type} {SS : Sym S} (pos : list (nat * (S * nat))) : list (nat * (S * nat)) :=
  map (fun nx => (fst nx, (sneg (fst (snd nx)), snd (snd nx)))) pos.
