(** The order in which Hamiltonian terms are visited.  include/square/simple_update_lattice.hpp:113-197, sampling_gradient_lattice.hpp:382-414.
    A term is known by its list of positions; the keys of the std::map [hamiltonians] come in ascending order.  int coordinates are unbounded
    here (y + 1 overflows in the code for the largest int). *)
From Coq Require Import String List Bool Arith ZArith.
From Verif Require Import Base.Outcome Base.SMap Model.Symmetry.
Import ListNotations.
Open Scope Z_scope.

(** std::tuple<int, int> *)
Definition site : Type := (Z * Z)%type.
Definition positions : Type := list site.

(** the two kinds of environment: std::tuple<char, int, int> with 'D' < 'R' *)
Inductive direction := DirD | DirR.
#[global] Instance Ord_direction : Ord direction := { cmp := fun a b => match a, b with DirD, DirR => Lt | DirR, DirD => Gt | _, _ => Eq end }.
Definition bond : Type := (direction * (Z * Z))%type.

(** _get_related_environment, 113-134 *)
Definition related_environment (p : positions) : res (list bond) :=
  match p with
  | [_] => Ok []
  | [(x1, y1); (x2, y2)] =>
      if (x1 =? x2) && (y1 + 1 =? y2) then Ok [(DirR, (x1, y1))]
      else if (x1 =? x2) && (y1 =? y2 + 1) then Ok [(DirR, (x2, y2))]
      else if (x1 + 1 =? x2) && (y1 =? y2) then Ok [(DirD, (x1, y1))]
      else if (x1 =? x2 + 1) && (y1 =? y2) then Ok [(DirD, (x2, y2))]
      else Throw (NotImplementedError "Unsupported environment style")
  | _ => Throw (NotImplementedError "Unsupported environment style")
  end.

(** the tests of _simple_update_positions_sequence, 142-187; % is the remainder of C++, Z.rem *)
Definition in_group0 (p : positions) : bool := Nat.eqb (length p) 1.
Definition in_horizontal (parity : Z) (p : positions) : bool :=
  match p with
  | [(x1, y1); (x2, y2)] => (x1 =? x2) && (((y1 + 1 =? y2) && (Z.rem y1 2 =? parity)) || ((y1 =? y2 + 1) && (Z.rem y2 2 =? parity)))
  | _ => false
  end.
Definition in_vertical (parity : Z) (p : positions) : bool :=
  match p with
  | [(x1, y1); (x2, y2)] => (y1 =? y2) && (((x1 + 1 =? x2) && (Z.rem x1 2 =? parity)) || ((x1 =? x2 + 1) && (Z.rem x2 2 =? parity)))
  | _ => false
  end.
Definition simple_update_groups (keys : list positions) : list (list positions) :=
  [filter in_group0 keys; filter (in_horizontal 0) keys; filter (in_horizontal 1) keys; filter (in_vertical 0) keys; filter (in_vertical 1) keys].
(** _simple_update_positions_sequence, 136-197 *)
Definition simple_update_sequence (keys : list positions) : res (list (list positions)) :=
  let result := simple_update_groups keys in
  let total_size := fold_left (fun n g => (n + length g)%nat) result 0%nat in
  if negb (Nat.eqb total_size (length keys)) then Throw (NotImplementedError "Unsupported simple update style") else Ok result.

(** hamiltonians.find *)
Definition contains (keys : list positions) (p : positions) : bool := existsb (eqb p) keys.
Definition if_found (keys : list positions) (p : positions) : list positions := if contains keys p then [p] else [].
(** 0, ..., n-1; empty for negative n *)
Definition upto (n : Z) : list Z := map Z.of_nat (seq 0 (Z.to_nat n)).
(** the two double loops of _markov_sampling_positions_sequence, 386-408 ('h' and 'v' hints left out: they only choose a contraction path) *)
Definition markov_candidates (M N : Z) (keys : list positions) : list positions :=
  flat_map (fun i => flat_map (fun j =>
    if_found keys [(i, j)] ++ if_found keys [(i, j); (i, j + 1)] ++ if_found keys [(i, j + 1); (i, j)]) (upto N)) (upto M)
  ++ flat_map (fun j => flat_map (fun i =>
    if_found keys [(i, j); (i + 1, j)] ++ if_found keys [(i + 1, j); (i, j)]) (upto M)) (upto N).
(** _markov_sampling_positions_sequence, 382-414 *)
Definition markov_sequence (M N : Z) (keys : list positions) : res (list positions) :=
  let result := markov_candidates M N keys in
  if negb (Nat.eqb (length result) (length keys)) then Throw (NotImplementedError "Unsupported markov sampling style") else Ok result.
