(** Multiplying one leg by a spectrum. *)
From Coq Require Import List Bool Ascii.
From Verif Require Import Base.SMap Model.Symmetry Model.Edge Model.Core.
Import ListNotations.

Section Spectrum.
  Context {S R : Type} {SS : Sym S} {RR : Scalar R}.
  (** u, U: the leg belongs to the u side (false); v, V: to the v side (true) *)
  Definition dir_of (c : ascii) : option bool :=
    (if Ascii.eqb c "u" || Ascii.eqb c "U" then Some false else if Ascii.eqb c "v" || Ascii.eqb c "V" then Some true else None)%char.
  (** the charge under which the spectrum holds the entries for charge s of the leg *)
  Definition turn (dd : bool) (s : S) : S := if dd then sneg s else s.
  (** the factor *)
  Definition weight (division : bool) (x : R) : R := if division then rdiv rone x else x.
  (** the spectrum has a vector of the right length for every charge of the leg *)
  Definition fits (t : tensor S R) (spectrum : list (S * list R)) (n : nat) (dd : bool) : Prop :=
    forall e s d, In (n, e) (combine (t_names t) (t_edges t)) -> In (s, d) (emap e) -> exists vec, mfind (turn dd s) spectrum = Some vec /\ length vec = d.
End Spectrum.
