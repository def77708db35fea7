(** Operators applied to one or two neighbouring sites of a lattice with environments. *)
From Coq Require Import List Bool Arith ZArith.
From Verif Require Import Base.Outcome Model.Symmetry Model.Core Model.SimpleTensor Spec.Contract Spec.Plain Spec.Grid Spec.ExactState Spec.WeightedLattice Spec.ExactOperator.
From Verif Require Model.SimpleUpdate.
Import ListNotations.

(** division of real numbers by positive ones, and the modulus of real numbers, as among the scalars *)
Record real_division {R V : Type} {RR : Scalar R} (vzero : V) (greater : V -> V -> bool) (of_real : V -> R) (vabs : V -> V) (vdiv : V -> V -> V) : Prop := {
  rv_div : forall x y, greater y vzero = true -> of_real (vdiv x y) = rdiv (of_real x) (of_real y);
  rv_zero : forall x, greater (vabs x) vzero = false -> of_real x = rzero }.

(** the two sites of a bond *)
Definition first_site (b : bond) : nat * nat := match b with Right_of i j | Below i j => (i, j) end.
Definition second_site (b : bond) : nat * nat := match b with Right_of i j => (i, 1 + j) | Below i j => (1 + i, j) end.
Definition is_end (b : bond) (p : nat * nat) : Prop := p = first_site b \/ p = second_site b.
(** a site as the code has it *)
Definition z_site (p : nat * nat) : Z * Z := (Z.of_nat (fst p), Z.of_nat (snd p)).

Section LocalUpdate.
  Context {R V : Type} {RR : Scalar R}.
  Notation tens := (tensor unit R).
  Notation net := (SimpleUpdate.network (res tens) (res (list (unit * list V)))).
  (** no weight on another bond of one of the two sites of b is zero *)
  Definition weights_around (m n : nat) (dim : bond -> nat) (w : bond -> nat -> R) (b : bond) : Prop :=
    forall b' k, In b' (bonds m n) -> b' <> b -> (is_end b' (first_site b) \/ is_end b' (second_site b)) -> k < dim b' -> w b' k <> rzero.
  (** the lattice x' holds the function f up to a factor *)
  Definition holds_multiple (m n d : nat) (of_real : V -> R) (f : (nat -> nat -> nat) -> R) (dim : bond -> nat) (T : nat -> nat -> tens) (x : net) : Prop :=
    simple_lattice m n d dim T x /\ exists c, forall s, spins_within m n d s -> f s = rmul c (weighted_wave m n dim T (weight_on of_real x) s).

  (** the update of the bond b keeps all singular values and divides by no weight that is zero *)
  Definition unhindered (m n d cut : nat) (of_real : V -> R) (b : bond) (x : net) : Prop :=
    forall dim T, simple_lattice m n d dim T x -> d * d * dim b <= cut /\ weights_around m n dim (weight_on of_real x) b.
  (** one term: a site, or two neighbours, the upper or the left one first *)
  Definition proper_term (m n d cut : nat) (of_real : V -> R) (ps : list (nat * nat)) (U : tens) (x : net) : Prop :=
    (exists p, ps = [p] /\ fst p < m /\ snd p < n /\ fits_operator 1 d U) \/
    exists b, ps = [first_site b; second_site b] /\ In b (bonds m n) /\ fits_operator 2 d U /\ unhindered m n d cut of_real b x.
  (** several terms one after the other *)
  Fixpoint applied_all (d : nat) (terms : list (list (nat * nat) * tens)) (f : (nat -> nat -> nat) -> R) : (nat -> nat -> nat) -> R :=
    match terms with [] => f | (ps, U) :: terms => applied_all d terms (applied d ps U f) end.
  Inductive all_updated (m n d cut : nat) (of_real : V -> R) (step : list (nat * nat) -> tens -> net -> res (net * bool)) : list (list (nat * nat) * tens) -> net -> net -> Prop :=
  | updated_none : forall x, all_updated m n d cut of_real step [] x x
  | updated_one : forall ps U terms x x1 x2, proper_term m n d cut of_real ps U x -> step ps U x = Ok (x1, false) -> all_updated m n d cut of_real step terms x1 x2 ->
      all_updated m n d cut of_real step ((ps, U) :: terms) x x2.
End LocalUpdate.
