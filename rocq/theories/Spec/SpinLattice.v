(** Square lattices whose tensors have an edge P for the spin of the site besides U, D, L, R; spins set and tensors replaced over time. *)
From Coq Require Import List Bool Arith ZArith.
From Verif Require Import Base.Outcome Model.Symmetry Model.Edge Model.Core Model.EdgeOperator Model.Contract Model.Auxiliaries Model.Spins Proof.CoreFacts Spec.Contract Spec.Plain Spec.Grid Spec.SquareLattice.
Import ListNotations.

Section SpinLattice.
  Context {R : Type} {RR : Scalar R}.
  Notation tens := (tensor unit R).

  (** the tensor for site (i, j): an edge P of dimension [d], an edge for every bond the site has, no other edges *)
  Record fits_spin (m n : nat) (dim : bond -> nat) (d : nat) (i j : nat) (t : tens) : Prop := {
    p_wf : wf_tensor t;
    p_block : t_blocks t <> [];
    p_phys : dimension t phys = Some d;
    p_up : dimension t (nm Up 0) = match i with 0 => None | S i' => Some (dim (Below i' j)) end;
    p_down : dimension t (nm Down 0) = if 1 + i <? m then Some (dim (Below i j)) else None;
    p_left : dimension t (nm Lft 0) = match j with 0 => None | S j' => Some (dim (Right_of i j')) end;
    p_right : dimension t (nm Rgt 0) = if 1 + j <? n then Some (dim (Right_of i j)) else None;
    p_only : forall n, In n (t_names t) -> In n [phys; nm Up 0; nm Down 0; nm Lft 0; nm Rgt 0] }.
  (** its elements *)
  Definition spin_elements (t : tens) (s u d l r : nat) : R := value t [(phys, s); (nm Up 0, u); (nm Down 0, d); (nm Lft 0, l); (nm Rgt 0, r)].
  (** the amplitude of a configuration of spins: the contraction of the lattice with the edges P fixed *)
  Definition psi (m n : nat) (dim : bond -> nat) (T : nat -> nat -> tens) (s : nat -> nat -> Z) : R :=
    network_sum m n dim (fun i j => spin_elements (T i j) (Z.to_nat (s i j))).

  (** the spin of a site after a sequence of actions: the last one set, -1 if none *)
  Definition spin_after (actions : list (@action R)) (i j : nat) : Z :=
    fold_left (fun s a => match a with SetSpin i' j' s' => if Nat.eqb i' i && Nat.eqb j' j then s' else s | _ => s end) actions (-1)%Z.
  (** the tensor of a site: the last one put there *)
  Definition tensor_after (T : nat -> nat -> tens) (actions : list (@action R)) (i j : nat) : tens :=
    fold_left (fun t a => match a with SetTensor i' j' t' => if Nat.eqb i' i && Nat.eqb j' j then t' else t | _ => t end) actions (T i j).

  (** actions on sites of the lattice, with spins that exist (or -1: no spin) and tensors that fit *)
  Definition proper (m n : nat) (dim : bond -> nat) (d : nat) (a : @action R) : Prop :=
    match a with
    | SetSpin i j s => i < m /\ j < n /\ (-1 <= s < Z.of_nat d)%Z
    | SetTensor i j t => i < m /\ j < n /\ fits_spin m n dim d i j t
    | Renew => True
    end.
  Definition keeps_tensors (a : @action R) : Prop := match a with SetTensor _ _ _ => False | _ => True end.
  (** a tensor is replaced only while the spin of its site is not set, or the spin is unset or the lattice copied afterwards *)
  Definition careful (actions : list (@action R)) : Prop :=
    forall before i j t after, actions = before ++ SetTensor i j t :: after ->
      spin_after before i j = (-1)%Z \/ In Renew after \/ In (SetSpin i j (-1)%Z) after.

  (** c is the configuration after some actions on a new lattice; its sites are now [T] and the spins are [s], all of them set *)
  Definition configured (E : @env R) (J : internal) (m n : nat) (dim : bond -> nat) (d : nat) (T : nat -> nat -> tens) (c : @spins R) (s : nat -> nat -> Z) : Prop :=
    exists T0 actions owner, (forall i j, i < m -> j < n -> fits_spin m n dim d i j (T0 i j)) /\ Forall (proper m n dim d) actions /\ careful actions /\
      run E J m n actions (lattice_of m n T0, fresh m n) = Ok (owner, c) /\
      forall i j, i < m -> j < n -> T i j = tensor_after T0 actions i j /\ s i j = spin_after actions i j /\ s i j <> (-1)%Z.

  (** other spins at some sites *)
  Definition spins_with (s : nat -> nat -> Z) (l : list (nat * nat * Z)) : nat -> nat -> Z :=
    fold_left (fun s p i j => let '(i', j', x) := p in if Nat.eqb i' i && Nat.eqb j' j then x else s i j) l s.
  (** none, one or two neighbouring sites, in the order of their positions, with spins that exist *)
  Inductive replaceable_spins (m n d : nat) : list (nat * nat * Z) -> Prop :=
  | spins_none : replaceable_spins m n d []
  | spins_one : forall i j s, i < m -> j < n -> (0 <= s < Z.of_nat d)%Z -> replaceable_spins m n d [(i, j, s)]
  | spins_row : forall i j s s', i < m -> 1 + j < n -> (0 <= s < Z.of_nat d)%Z -> (0 <= s' < Z.of_nat d)%Z -> replaceable_spins m n d [(i, j, s); (i, 1 + j, s')]
  | spins_column : forall i j s s', 1 + i < m -> j < n -> (0 <= s < Z.of_nat d)%Z -> (0 <= s' < Z.of_nat d)%Z -> replaceable_spins m n d [(i, j, s); (1 + i, j, s')].

  (** the derivative of the amplitude by the element u, d, l, r of site (i, j): the contraction with the site replaced by the tensor that is
      one there and zero elsewhere *)
  Definition unit_site (u d l r u' d' l' r' : nat) : R := if Nat.eqb u' u && Nat.eqb d' d && Nat.eqb l' l && Nat.eqb r' r then rone else rzero.
  Definition psi_around (m n : nat) (dim : bond -> nat) (T : nat -> nat -> tens) (s : nat -> nat -> Z) (i j u d l r : nat) : R :=
    network_sum m n dim (fun i' j' => if Nat.eqb i' i && Nat.eqb j' j then unit_site u d l r else spin_elements (T i' j') (Z.to_nat (s i' j'))).
  Definition bar (real : bool) (x : R) : R := if real then x else rconj x.
  (** the conjugate of the logarithmic derivative of the amplitude by the element p, u, d, l, r of site (i, j) *)
  Definition log_derivative (real : bool) (m n : nat) (dim : bond -> nat) (T : nat -> nat -> tens) (s : nat -> nat -> Z) (ws : R) (i j p u d l r : nat) : R :=
    if Z.eqb (s i j) (Z.of_nat p) then rdiv (bar real (psi_around m n dim T s i j u d l r)) (bar real ws) else rzero.
End SpinLattice.
