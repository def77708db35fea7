(** Configurations of spins with their cut tensors, and the gradient: include/square/sampling_gradient_lattice.hpp 27-152 and 165-270.
    Positions are not negative; spins are ints (Z).  The lazy nodes are the functions of Model/Auxiliaries.v. *)
From Coq Require Import String Ascii List Bool Arith ZArith.
From Verif Require Import Base.Outcome Base.SMap Model.Symmetry Model.Edge Model.Core Model.EdgeOperator Model.Elementwise Model.Contract Model.Misc Model.ShrinkExpand Model.Qr Model.Svd Model.Auxiliaries.
Import ListNotations.

(** the name "P" *)
Definition phys : name := 20.

(** v[i][j] of a vector of vectors, not checked *)
Definition cell {A : Type} (l : list (list A)) (i j : nat) : res A := bind (get_or_ub (nth_error l i)) (fun row => get_or_ub (nth_error row j)).
Definition put_cell {A : Type} (l : list (list A)) (i j : nat) (x : A) : res (list (list A)) :=
  bind (get_or_ub (nth_error l i)) (fun row => bind (get_or_ub (update row j x)) (fun row' => get_or_ub (update l i row'))).

Section Spins.
  Context {R V : Type} {RR : Scalar R}.
  Notation tens := (tensor unit R).
  Variables (E : @env R) (J : internal) (Iq : qr_names) (Is : svd_names).
  Variables (L : qr_lapack R) (gesvd : nat -> nat -> list R -> bool * (list V * list R * list R)).
  Variables (vzero vjunk : V) (greater : V -> V -> bool) (of_real : V -> R).
  Variables (M N cut : nat).

  (** SpinConfiguration, 29-31: the roots lattice[i][j] (None: unset) and the spins (-1: unset).  The owner's tensors are an argument of the
      functions, as owner is a pointer. *)
  Record spins := mkSpins { s_cut : list (list (option tens)); s_spin : list (list Z) }.
  (** 45-53 *)
  Definition fresh : spins := mkSpins (repeat (repeat None N) M) (repeat (repeat (-1)%Z N) M).
  (** owner->lattice[x][y].shrink({{"P", spin}}), 65 and 76.  A negative spin is converted to a huge index: an element outside of the helper
      of shrink is written *)
  Definition cut_at (t : tens) (s : Z) : res tens := if Z.ltb s 0 then UB else shrink E J t [(phys, (tt, Z.to_nat s))] None false.
  (** set, 55-69 *)
  Definition set_spin (owner : list (list tens)) (c : spins) (i j : nat) (s : Z) : res spins :=
    bind (cell (s_spin c) i j) (fun old =>
    if Z.eqb old s then Ok c
    else
    bind (if Z.eqb s (-1) then Ok None else bind (cell owner i j) (fun t => bind (cut_at t s) (fun x => Ok (Some x)))) (fun x =>
    bind (put_cell (s_cut c) i j x) (fun cuts => bind (put_cell (s_spin c) i j s) (fun sp => Ok (mkSpins cuts sp))))).
  (** initialize_spin, 138-152 *)
  Definition initialize_spin (owner : list (list tens)) (f : nat -> nat -> res Z) (c : spins) : res spins :=
    foldM (fun c ij => bind (f (fst ij) (snd ij)) (fun s => set_spin owner c (fst ij) (snd ij) s)) (flat_map (fun i => map (pair i) (seq 0 N)) (seq 0 M)) c.
  (** a copy of the lattice, 99-106, and set_dimension_cut, 131-136 (the dimension_cut is a parameter here): the spins of the old
      configuration are set in a fresh one *)
  Definition renew (owner : list (list tens)) (c : spins) : res spins := initialize_spin owner (cell (s_spin c)) fresh.

  (** the values of the roots.  Getting an unset root dereferences a null pointer (lazy.hpp:125-127); here all roots are read, though not all
      of them may be needed *)
  Definition present (c : spins) : res (list (list tens)) := mapM (mapM get_or_ub) (s_cut c).
  (** operator()(), 86-88 *)
  Definition spin_amplitude (c : spins) : res (R * bool) :=
    bind (present c) (fun l => amplitude E J Iq Is L gesvd vzero vjunk greater of_real M N cut l [] " "%char).
  (** operator()(replacement, ws, hint), 71-84.  The replacements are in the order of the map *)
  Definition changed_spins (owner : list (list tens)) (c : spins) (replacement : list (nat * nat * Z)) : res (list (nat * nat * tens)) :=
    foldM (fun l p => let '(i, j, s) := p in
      bind (cell (s_spin c) i j) (fun old =>
      if Z.eqb old s then Ok l else bind (cell owner i j) (fun t => bind (cut_at t s) (fun x => Ok (l ++ [(i, j, x)]))))) replacement [].
  Definition spin_replaced (owner : list (list tens)) (c : spins) (replacement : list (nat * nat * Z)) (ws : R) (hint : ascii) : res (R * bool) :=
    bind (changed_spins owner c replacement) (fun real =>
    match real with
    | [] => Ok (ws, false)
    | _ => bind (present c) (fun l => amplitude E J Iq Is L gesvd vzero vjunk greater of_real M N cut l real hint)
    end).

  (** what a user does with a lattice: set a spin, put another tensor at a site (lattice is a public member: square/abstract_network_lattice.hpp;
      examples/heisenberg.cpp:188-194 does it after every gradient), copy the lattice or change dimension_cut *)
  Inductive action := SetSpin (i j : nat) (s : Z) | SetTensor (i j : nat) (t : tens) | Renew.
  Definition act (st : list (list tens) * spins) (a : action) : res (list (list tens) * spins) :=
    match a with
    | SetSpin i j s => bind (set_spin (fst st) (snd st) i j s) (fun c => Ok (fst st, c))
    | SetTensor i j t => bind (put_cell (fst st) i j t) (fun owner => Ok (owner, snd st))
    | Renew => bind (renew (fst st) (snd st)) (fun c => Ok (fst st, c))
    end.
  Definition run (actions : list action) (st : list (list tens) * spins) : res (list (list tens) * spins) := foldM act actions st.

  (** ** the gradient.  [real]: the scalar type is real; conj of square/basic.hpp:56-63 (for complex scalars it calls a member function that
      std::complex does not have) *)
  Variables (real : bool) (of_nat : nat -> R).
  Definition conj (x : R) : R := if real then x else rconj x.
  (** 225-226; d: dimension_physics *)
  Definition spin_hole (d : nat) (c : spins) (i j : nat) (ws : R) : res (tens * bool) :=
    bindw (bind (present c) (fun l => environment E J Iq Is L gesvd vzero vjunk greater of_real M N cut l [(i, j)] " "%char)) (fun e => quiet (
    let raw := edge_rename e [(nm Lft 4, nm Lft 0); (nm Rgt 4, nm Rgt 0); (nm Up 4, nm Up 0); (nm Down 4, nm Down 0)] in
    bind (conjugate E real raw) (fun x =>
    bind (scalar_number E (fun y => rdiv y (conj ws)) x) (fun y =>
    bind (cell (s_spin c) i j) (fun s =>
    if Z.ltb s 0 then UB else expand E J y [(phys, (false, (tt, (Z.to_nat s, d))))] None))))).
  (** holes and holes_with_Es of one site, 171-180: same_shape().zero() *)
  Definition no_holes (t : tens) : res (tens * tens) :=
    bind (same_shape (env_junk E) t) (fun a => bind (same_shape (env_junk E) t) (fun b => Ok (zero_tensor a, zero_tensor b))).
  (** 227-228 *)
  Definition add_hole (Es : R) (acc : tens * tens) (hole : tens) : res (tens * tens) :=
    bind (scalar_number E (fun x => rmul x Es) hole) (fun x =>
    bind (scalar_inplace E radd (snd acc) x) (fun with_es =>
    bind (scalar_inplace E radd (fst acc) hole) (fun h => Ok (h, with_es)))).
  (** 267 *)
  Definition site_gradient (n : nat) (sum_of_Es : R) (acc : tens * tens) : res tens :=
    bind (scalar_number E (fun x => rdiv x (of_nat n)) (snd acc)) (fun a =>
    bind (scalar_number E (fun x => rmul (of_nat 2) x) a) (fun b =>
    bind (scalar_number E (fun x => rdiv x (of_nat n)) (fst acc)) (fun c =>
    bind (scalar_number E (fun x => rmul (rmul (of_nat 2) (rdiv sum_of_Es (of_nat n))) x) c) (fun e =>
    scalar_op E rsub b e)))).
  (** the gradient of site (i, j) from the samples (configuration, its amplitude ws, its energy Es), 221-231 and 263-270.  The loops over the
      sites are independent of each other; one of them is taken here. *)
  Definition gradient_at (d : nat) (owner : list (list tens)) (samples : list (spins * R * R)) (i j : nat) : res (tens * bool) :=
    bindw (quiet (bind (cell owner i j) no_holes)) (fun acc =>
    bindw (foldM (fun (aw : (tens * tens) * bool) smp => let '(c, ws, Es) := smp in
             bind (spin_hole d c i j ws) (fun hw => bind (add_hole Es (fst aw) (fst hw)) (fun acc' => Ok (acc', snd aw || snd hw))))
             samples (acc, false)) (fun acc' =>
    quiet (site_gradient (length samples) (fold_left radd (map snd samples) rzero) acc'))).
End Spins.
