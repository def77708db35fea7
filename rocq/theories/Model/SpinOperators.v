(** The operators of spin 1/2, struct Common, include/square/basic.hpp:65-139, and the setters of terms, include/square/abstract_lattice.hpp:48-70.
    The static variables that keep the results are left out: every call gives an equal tensor. *)
From Coq Require Import List Bool Arith ZArith.
From Verif Require Import Base.Outcome Base.SMap Model.Symmetry Model.Edge Model.Core Model.EdgeOperator Model.Elementwise Model.Contract Model.SimpleTensor Model.NetworkNew.
From Verif Require Model.Schedule.
Import ListNotations.

Section Single.
  Context {R : Type} {RR : Scalar R}.
  Notation tens := (tensor unit R).
  (** the contents of memory that was not written yet *)
  Variable junk : R.
  (** Tensor({"I0", "O0"}, {2, 2}), zero(), then at({{"I0", i}, {"O0", o}}) = v for some entries: 72-75, 84-87, 96-99 *)
  Definition single_operator (entries : list (nat * nat * R)) : res tens :=
    bind (make_tensor junk [in_name 0; out_name 0] [plain_edge 2; plain_edge 2] false) (fun t =>
    foldM (fun t e => let '(i, o, v) := e in set_at t [(in_name 0, (tt, i)); (out_name 0, (tt, o))] v) entries (zero_tensor t)).
  (** single->edge_rename({{"I0", "I1"}, {"O0", "O1"}}).contract( *single, {}): 109, 118, 127 *)
  Definition pair_operator (E : @env R) (J : internal) (single : res tens) : res tens :=
    bind single (fun s => contract E J (edge_rename s [(in_name 0, in_name 1); (out_name 0, out_name 1)]) s []).
End Single.

Section Spin.
  Context {R C : Type} {RR : Scalar R} {RC : Scalar C}.
  (** 0.5 and -0.5; C{0, x}; the conversion to<T>() of an element: the real part, or nothing when T is complex *)
  Variables (half mhalf : R) (imaginary : R -> C) (part : C -> R).
  Variables (E : @env R) (EC : @env C) (J : internal) (junk : R) (junkC : C).
  Definition spin_x : res (tensor unit R) := single_operator junk [(0, 1, half); (1, 0, half)].
  Definition spin_y : res (tensor unit C) := single_operator junkC [(0, 1, imaginary mhalf); (1, 0, imaginary half)].
  Definition spin_z : res (tensor unit R) := single_operator junk [(0, 0, half); (1, 1, mhalf)].
  (** Tensor::to, tensor.hpp: a tensor with the same names and edges, every element converted *)
  Definition convert_tensor (t : tensor unit C) : tensor unit R := mkTensor (t_names t) (mkCore (t_edges t) (map (fun b => (fst b, map part (snd b))) (t_blocks t))).
  (** SxSx, SySy, SzSz: 105-130 *)
  Definition spin_xx : res (tensor unit R) := pair_operator E J spin_x.
  Definition spin_yy : res (tensor unit R) := bind (pair_operator EC J spin_y) (fun t => Ok (convert_tensor t)).
  Definition spin_zz : res (tensor unit R) := pair_operator E J spin_z.
  (** SS: 132-138 *)
  Definition spin_ss : res (tensor unit R) :=
    bind spin_xx (fun x => bind spin_yy (fun y => bind spin_zz (fun z => bind (scalar_op E radd x y) (fun s => scalar_op E radd s z)))).
End Spin.

Section Setters.
  Context {H : Type}.
  Notation terms := (list (Schedule.positions * H)).
  (** the loops over i < m and j < n, ascending; m and n may be negative *)
  Definition loop (m n : Z) : list Schedule.site := flat_map (fun i => map (fun j => (Z.of_nat i, Z.of_nat j)) (seq 0 (Z.to_nat n))) (seq 0 (Z.to_nat m)).
  (** set_all_site, 48-54 *)
  Definition set_all_site (m n : Z) (h : H) (l : terms) : terms := fold_left (fun l ij => mset [ij] h l) (loop m n) l.
  (** set_all_vertical_bond, 56-62 *)
  Definition set_all_vertical_bond (m n : Z) (h : H) (l : terms) : terms :=
    fold_left (fun l ij => let (i, j) := (ij : Schedule.site) in mset [(i, j); (i + 1, j)%Z] h l) (loop (m - 1) n) l.
  (** set_all_horizontal_bond, 64-70 *)
  Definition set_all_horizontal_bond (m n : Z) (h : H) (l : terms) : terms :=
    fold_left (fun l ij => let (i, j) := (ij : Schedule.site) in mset [(i, j); (i, j + 1)%Z] h l) (loop m (n - 1)) l.
End Setters.
