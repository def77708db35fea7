(** What it means that a value survives being written and read. *)
From Coq Require Import List Bool Arith ZArith.
From Verif Require Import Base.Outcome Base.SMap Model.Symmetry Model.Edge Model.Core Model.Names Model.Binary.
Import ListNotations.

(** a number a 64 bit Size can hold *)
Definition fits (n : nat) : Prop := (Z.of_nat n < 2 ^ 64)%Z.
Definition fits_int (z : Z) : Prop := (- 2 ^ 31 <= z < 2 ^ 31)%Z.

(** reading where b was written gives a and goes on behind b *)
Definition reads {A} (rd : reader A) (b : bytes) (a : A) : Prop := forall rest, rd (b ++ rest, true) = Ok (a, (rest, true)).

(** the object representation of the values in ok determines them *)
Class PlainLaws (A : Type) {PA : Plain A} (ok : A -> Prop) : Prop := {
  to_bytes_length : forall pad a, length (to_bytes pad a) = size_of;
  from_to_bytes : forall pad a, ok a -> from_bytes (to_bytes pad a) = Some a }.
Class ScalarLaws (R : Type) {RIO : ScalarIO R} (ok : R -> Prop) : Prop := {
  scalar_length : forall x : R, length (scalar_bytes x) = width;
  scalar_of_bytes : forall x : R, ok x -> scalar_of (scalar_bytes x) = x }.
Class NameLaws (NIO : NameIO) (ok : list name -> Prop) : Prop := {
  names_read_back : forall pad l, ok l -> reads (read_names pad) (write_names pad l) l }.

Section Tensors.
  Context {S R : Type} {SS : Sym S}.
  Variables (ok_charge : S -> Prop) (ok_scalar : R -> Prop) (ok_names : list name -> Prop).

  Definition storable_edge (e : edge S) : Prop := fits (length (emap e)) /\ forall s d, In (s, d) (emap e) -> ok_charge s /\ fits d.
  (** a tensor that fits into the memory of the machine *)
  Record storable (t : tensor S R) : Prop := {
    st_names : ok_names (t_names t);
    st_rank : fits (length (t_edges t));
    st_edges : forall e, In e (t_edges t) -> storable_edge e;
    st_count : fits (length (t_blocks t));
    st_blocks : forall k b, In (k, b) (t_blocks t) -> fits (length k) /\ (forall s, In s k -> ok_charge s) /\ fits (length b) /\ (forall x, In x b -> ok_scalar x) }.
  (** an edge of a plain tensor has a dimension *)
  Definition has_dimensions (t : tensor S R) : Prop := is_nosym = true -> forall e, In e (t_edges t) -> emap e <> [].

  (** equal tensors; only fermionic edges have arrows *)
  Definition same_edge (e e' : edge S) : Prop := emap e = emap e' /\ (is_fermi = true -> earrow e = earrow e').
  Definition same_tensor (t t' : tensor S R) : Prop :=
    t_names t = t_names t' /\ Forall2 same_edge (t_edges t) (t_edges t') /\ t_blocks t = t_blocks t'.
End Tensors.

(** lattices with shared terms *)
Section Lattices.
  Context {S R : Type} {SS : Sym S}.
  (** l was written where the objects are hp, l' was read where the objects are hp': the same terms with equal operators, shared between the same terms *)
  Definition same_lattice (hp hp' : list (tensor S R)) (l l' : lattice) : Prop :=
    l_m l = l_m l' /\ l_n l = l_n l' /\ l_d l = l_d l' /\
    (forall p, mfind p (hamiltonians l) = None <-> mfind p (hamiltonians l') = None) /\
    (forall p i j, mfind p (hamiltonians l) = Some i -> mfind p (hamiltonians l') = Some j ->
      exists t t', nth_error hp i = Some t /\ nth_error hp' j = Some t' /\ same_tensor t t') /\
    (forall p q i i' j j', mfind p (hamiltonians l) = Some i -> mfind q (hamiltonians l) = Some i' ->
      mfind p (hamiltonians l') = Some j -> mfind q (hamiltonians l') = Some j' -> (i = i' <-> j = j')).
  (** a lattice that fits into the memory of the machine and into its integers *)
  Record storable_lattice (good : tensor S R -> Prop) (hp : list (tensor S R)) (l : lattice) : Prop := {
    sl_m : fits_int (l_m l); sl_n : fits_int (l_n l); sl_d : fits (l_d l);
    sl_sorted : msorted (hamiltonians l);
    sl_count : (Z.of_nat (length (hamiltonians l)) < 2 ^ 31)%Z;
    sl_terms : forall p i, In (p, i) (hamiltonians l) ->
      fits (length p) /\ (forall xy, In xy p -> fits_int (fst xy) /\ fits_int (snd xy)) /\ exists t, nth_error hp i = Some t /\ good t }.
End Lattices.
