(** Names partitioned into pairs; which coordinates lie on the diagonal. *)
From Coq Require Import List Bool Arith Permutation.
From Verif Require Import Base.SMap Model.Symmetry Model.Edge Model.Core Spec.Relabel.
Import ListNotations.

(** every name is in exactly one pair, and a pair has two names *)
Definition pairs_up (pairs : list (nat * nat)) (names : list nat) : Prop :=
  Permutation (concat (map (fun ab => [fst ab; snd ab]) pairs)) names.

Section Pairing.
  Context {S : Type} {SS : Sym S}.
  (** the two indices of every pair agree *)
  Definition equal_indices (pos : list (nat * (S * nat))) (pairs : list (nat * nat)) : bool :=
    forallb (fun ab => Nat.eqb (snd (coord pos (fst ab))) (snd (coord pos (snd ab)))) pairs.
  (** the two charges of every pair are opposite *)
  Definition opposite_charges (pos : list (nat * (S * nat))) (pairs : list (nat * nat)) : bool :=
    forallb (fun ab => eqb (fst (coord pos (fst ab))) (sneg (fst (coord pos (snd ab))))) pairs.
End Pairing.
