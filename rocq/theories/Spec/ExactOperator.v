(** Operators on some sites, and what they do to wave functions. *)
From Coq Require Import List Bool Arith.
From Verif Require Import Base.Outcome Base.SMap Model.Symmetry Model.Edge Model.Core Model.SimpleTensor Model.Exact Proof.CoreFacts Spec.Contract Spec.Plain Spec.Grid Spec.ExactState.
Import ListNotations.

Definition pair_eqb (p q : nat * nat) : bool := Nat.eqb (fst p) (fst q) && Nat.eqb (snd p) (snd q).
(** different sites of the lattice *)
Definition on_lattice (m n : nat) (ps : list (nat * nat)) : Prop := NoDup ps /\ Forall (fun p => fst p < m /\ snd p < n) ps.
(** other spins at some sites *)
Definition spins_put (s : nat -> nat -> nat) (ps : list (nat * nat)) (q : list nat) : nat -> nat -> nat :=
  fun i j => match find (fun pq => pair_eqb (fst pq) (i, j)) (combine ps q) with Some pq => snd pq | None => s i j end.

(** subtraction undoes addition and the other way round *)
Definition subtracting (R : Type) {RR : Scalar R} : Prop := forall x y : R, rsub (radd x y) y = x /\ radd (rsub x y) y = x.
(** the modulus of a product; division by a positive real number not smaller than the modulus *)
Record multiplicative_modulus {R V : Type} {RR : Scalar R} (vzero vone : V) (vmul : V -> V -> V) (greater : V -> V -> bool) (of_real : V -> R) (abs : R -> V) : Prop := {
  mm_mul : forall x y, abs (rmul x y) = vmul (abs x) (abs y);
  mm_one : forall x, vmul (abs x) vone = abs x;
  mm_less : forall x y z, greater y z = false -> greater (vmul (abs x) y) (vmul (abs x) z) = false;
  mm_divide : forall x v, greater v vzero = true -> greater (abs x) v = false -> greater (abs (rdiv x (of_real v))) vone = false;
  mm_itself : forall x, greater (abs x) vzero = true -> abs (rdiv x (of_real (abs x))) = vone;
  mm_positive : greater vone vzero = true }.
(** differences of real numbers *)
Record real_difference {R V : Type} {RR : Scalar R} (vzero : V) (vsub : V -> V -> V) (greater : V -> V -> bool) (of_real : V -> R) (abs : R -> V) : Prop := {
  rd_abs : forall x y, greater x y = true -> abs (rsub (of_real x) (of_real y)) = vsub x y;
  rd_positive : forall x y, greater x y = true -> greater (vsub x y) vzero = true;
  rd_back : forall x y, vsub x (vsub x y) = y }.

Section ExactOperator.
  Context {R : Type} {RR : Scalar R}.
  Notation tens := (tensor unit R).
  Notation function := ((nat -> nat -> nat) -> R).

  (** edges I0, I1, ... and O0, O1, ... for k sites *)
  Record fits_operator (k d : nat) (t : tens) : Prop := {
    o_wf : wf_tensor t;
    o_block : t_blocks t <> [];
    o_in : forall i, i < k -> dimension t (in_name i) = Some d;
    o_out : forall i, i < k -> dimension t (out_name i) = Some d;
    o_only : forall n, In n (t_names t) -> exists i, i < k /\ (n = in_name i \/ n = out_name i) }.
  Definition operator_element (k : nat) (t : tens) (ins outs : list nat) : R := value t (combine (map in_name (seq 0 k)) ins ++ combine (map out_name (seq 0 k)) outs).
  (** (A f)(s): the sum over the spins q of the sites ps of A(q, s at ps) f(s with q at ps) *)
  Definition applied (d : nat) (ps : list (nat * nat)) (A : tens) (f : function) : function := fun s =>
    Sums (repeat d (length ps)) (fun q => rmul (f (spins_put s ps q)) (operator_element (length ps) A q (map (fun p => s (fst p) (snd p)) ps))).
  (** the sum over all configurations *)
  Definition over_spins (m n d : nat) (f : function) : R := Over pair_eqb (fun _ => d) (sites m n) (fun at_ => f (fun i j => at_ (i, j))) (fun _ => 0).
  Definition overlap (m n d : nat) (f g : function) : R := over_spins m n d (fun s => rmul (rconj (f s)) (g s)).
  (** the same without the conjugate *)
  Definition bilinear (m n d : nat) (f g : function) : R := over_spins m n d (fun s => rmul (f s) (g s)).
  (** the sum of the terms *)
  Definition energy_of (d : nat) (terms : list (list (nat * nat) * tens)) (f : function) : function := fun s => rsum (map (fun po => applied d (fst po) (snd po) f s) terms).
  (** a f - H f *)
  Definition shifted (d : nat) (a : R) (terms : list (list (nat * nat) * tens)) (f : function) : function := fun s => rsub (rmul a (f s)) (energy_of d terms f s).
  (** (a - H)^k f *)
  Fixpoint shifted_times (d : nat) (a : R) (terms : list (list (nat * nat) * tens)) (k : nat) (f : function) : function :=
    match k with 0 => f | S k' => shifted d a terms (shifted_times d a terms k' f) end.
  (** l is the largest modulus of f; zero if there are no configurations *)
  Definition largest {V : Type} (m n d : nat) (vzero : V) (greater : V -> V -> bool) (abs : R -> V) (f : function) (l : V) : Prop :=
    (forall s, spins_within m n d s -> greater (abs (f s)) l = false) /\ (l = vzero \/ exists s, spins_within m n d s /\ l = abs (f s)).
  Definition proper_terms (m n d : nat) (terms : list (list (nat * nat) * tens)) : Prop := Forall (fun po => on_lattice m n (fst po) /\ fits_operator (length (fst po)) d (snd po)) terms.
End ExactOperator.
