(** The simple update with tensors: what the parameters of Model/SimpleUpdate.v are in include/square/simple_update_lattice.hpp.
    A tensor or environment that could not be computed (an exception was thrown) is a value of its own, [res].  Messages that svd prints
    when LAPACK fails are ignored, as the code does. *)
From Coq Require Import String Ascii List Bool Arith ZArith.
From Verif Require Import Base.Outcome Base.SMap Model.Symmetry Model.Edge Model.Core Model.EdgeOperator Model.Elementwise Model.Contract Model.Misc Model.Qr Model.Svd Model.Auxiliaries Model.Spins.
From Verif Require Model.Schedule Model.SimpleUpdate.
Import ListNotations.

(** the names "P0", "P1"; "I<k>", "O<k>" of operators; "D<j>" and "P-<i>-<j>" of an exact lattice.  Different texts, different numbers *)
Definition phys_0 : name := 21.
Definition phys_1 : name := 22.
Definition in_name (k : nat) : name := 100 + 4 * k.
Definition out_name (k : nat) : name := 101 + 4 * k.

Section SimpleTensor.
  Context {R V : Type} {RR : Scalar R}.
  Notation tens := (tensor unit R).
  Notation spectrum := (list (unit * list V)).
  Variables (E : @env R) (J : internal) (Iq : qr_names) (Is : svd_names).
  Variables (L : qr_lapack R) (gesvd : nat -> nat -> list R -> bool * (list V * list R * list R)).
  Variables (vzero vjunk : V) (greater : V -> V -> bool) (of_real : V -> R).
  (** std::abs of a scalar and of a real number; division of real numbers *)
  Variables (abs : R -> V) (vabs : V -> V) (vdiv : V -> V -> V).

  (** Tensor::norm<-1>, tensor.hpp:418-428 *)
  Definition norm_t (t : tens) : V := norm_max V vzero (fun x y => greater y x) abs t.
  (** t /= t.norm<-1>() *)
  Definition normal (t : tens) : tens := let n := norm_t t in transform (fun x => rdiv x (of_real n)) t.
  (** Singular::norm<-1>, tensor.hpp:62-71, and s /= s.norm<-1>() *)
  Definition norm_s (s : spectrum) : V := fold_left (fun acc sv => fold_left (fun acc x => if greater (vabs x) acc then vabs x else acc) (snd sv) acc) s vzero.
  Definition normal_s (s : spectrum) : spectrum := let n := norm_s s in map (fun sv => (fst sv, map (fun x => vdiv x n) (snd sv))) s.

  Definition scalars (s : spectrum) : list (unit * list R) := map (fun sv => (fst sv, map of_real (snd sv))) s.
  (** the edge of a side, and the direction letter that goes with it, 305-320 *)
  Definition edge_of (d : SimpleUpdate.side) : name :=
    match d with SimpleUpdate.SideL => nm Lft 0 | SimpleUpdate.SideU => nm Up 0 | SimpleUpdate.SideD => nm Down 0 | SimpleUpdate.SideR => nm Rgt 0 end.
  Definition letter_of (d : SimpleUpdate.side) : ascii :=
    match d with SimpleUpdate.SideL | SimpleUpdate.SideU => "v"%char | SimpleUpdate.SideD | SimpleUpdate.SideR => "u"%char end.
  Definition multiple_t (x : res tens) (s : res spectrum) (d : SimpleUpdate.side) (division : bool) : res tens :=
    bind x (fun t => bind s (fun s => multiple E t (scalars s) (edge_of d) (letter_of d) division)).
  (** 233 *)
  Definition site_update_t (x updater : res tens) : res tens :=
    bind x (fun t => bind updater (fun u => bind (contract E J t u [(phys, in_name 0)]) (fun r => Ok (edge_rename r [(out_name 0, phys)])))).
  (** 247-255, 261 and 280-288, 294.  dim: dimension_virtual.  The boolean: whether svd prints a message *)
  Definition bond_parts (dim : nat) (horizontal : bool) (x y updater : res tens) : res (tens * spectrum * tens * bool) :=
    let a := nm (if horizontal then Rgt else Down) 0 in
    let b := nm (if horizontal then Lft else Up) 0 in
    bind x (fun x => bind y (fun y => bind updater (fun updater =>
    bind (qr L E Iq x "r"%char [phys; a] a b) (fun xqr =>
    bind (qr L E Iq y "r"%char [phys; b] b a) (fun yqr =>
    bind (contract E J (edge_rename (snd xqr) [(phys, phys_0)]) (edge_rename (snd yqr) [(phys, phys_1)]) [(a, b)]) (fun c =>
    bind (contract E J c updater [(phys_0, in_name 0); (phys_1, in_name 1)]) (fun c =>
    bind (svd gesvd vzero greater E vjunk Is c [b; out_name 0] a b (Some dim)) (fun usv =>
    let '(u, s, v, w) := usv in
    bind (contract E J u (fst xqr) [(b, a)]) (fun u =>
    bind (contract E J v (fst yqr) [(a, b)]) (fun v =>
    Ok (edge_rename u [(out_name 0, phys)], normal_s s, edge_rename v [(out_name 1, phys)], w))))))))))).
  Definition bond_update_t (dim : nat) (horizontal : bool) (x y updater : res tens) : res tens * res spectrum * res tens :=
    let parts := bond_parts dim horizontal x y updater in
    (bind parts (fun p => Ok (fst (fst (fst p)))), bind parts (fun p => Ok (snd (fst (fst p)))), bind parts (fun p => Ok (snd (fst p)))).
  Definition normalized_t (x : res tens) : res tens := bind x (fun t => Ok (normal t)).

  Notation network := (SimpleUpdate.network (res tens) (res spectrum)).
  (** _single_term_simple_update *)
  Definition single_term_t (dim : nat) (p : Schedule.positions) (updater : res tens) (n : network) : res network :=
    SimpleUpdate.single_term multiple_t site_update_t (bond_update_t dim) normalized_t p updater n.
  (** whether svd prints a message in the update of the bond between a site and the one to the right of it or below it *)
  Definition bond_message (dim : nat) (horizontal : bool) (p : Schedule.site) (updater : res tens) (n : network) : res bool :=
    let (i, j) := p in
    let q := if horizontal then (i, (j + 1)%Z) else ((i + 1)%Z, j) in
    bind (SimpleUpdate.get_site n i j) (fun x =>
    let x := SimpleUpdate.try_all multiple_t n x i j [SimpleUpdate.SideL; SimpleUpdate.SideU; SimpleUpdate.SideD; SimpleUpdate.SideR] false in
    bind (SimpleUpdate.get_site n (fst q) (snd q)) (fun y =>
    let y := SimpleUpdate.try_all multiple_t n y (fst q) (snd q) (if horizontal then [SimpleUpdate.SideU; SimpleUpdate.SideD; SimpleUpdate.SideR] else [SimpleUpdate.SideL; SimpleUpdate.SideD; SimpleUpdate.SideR]) false in
    bind (bond_parts dim horizontal x y updater) (fun p => Ok (snd p)))).
  Definition term_message (dim : nat) (p : Schedule.positions) (updater : res tens) (n : network) : res bool :=
    match p with
    | [a; b] =>
        if (fst a =? fst b)%Z && (snd a =? snd b + 1)%Z then bond_message dim true b updater n
        else if (fst a =? fst b)%Z && (snd a + 1 =? snd b)%Z then bond_message dim true a updater n
        else if (snd a =? snd b)%Z && (fst a =? fst b + 1)%Z then bond_message dim false b updater n
        else bond_message dim false a updater n
    | _ => Ok false
    end.
  (** what a caller of _single_term_simple_update sees: the exception, or the lattice afterwards and whether svd printed a message *)
  Definition term_result (dim : nat) (p : Schedule.positions) (updater : tens) (n : network) : res (network * bool) :=
    bind (single_term_t dim p (Ok updater) n) (fun n' =>
    bind (mapM (fun s => bind (SimpleUpdate.get_site n' (fst s) (snd s)) (fun t => t)) p) (fun _ =>
    bind (term_message dim p (Ok updater) n) (fun w => Ok (n', w)))).

  (** ** conversion.hpp *)
  (** try_multiple(t, i, j, 'D'), then 'R': 35-36 and 66-67 *)
  Definition weighted_t (n : network) (i j : nat) (t : res tens) : res tens :=
    SimpleUpdate.try_all multiple_t n t (Z.of_nat i) (Z.of_nat j) [SimpleUpdate.SideD; SimpleUpdate.SideR] false.
  (** SamplingGradientLattice(SimpleUpdateLattice, Dc), 29-42: its sites *)
  Definition sampling_sites (M N : nat) (n : network) : res (list (list tens)) :=
    mapM (fun i => mapM (fun j => bind (cell (SimpleUpdate.lattice n) i j) (fun t => normalized_t (weighted_t n i j t))) (seq 0 N)) (seq 0 M).
End SimpleTensor.
