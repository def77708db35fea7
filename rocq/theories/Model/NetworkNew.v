(** New lattices: the constructors AbstractNetworkLattice(M, N, D, d), include/square/abstract_network_lattice.hpp:41-68, which
    SimpleUpdateLattice(M, N, D, d) calls (simple_update_lattice.hpp:50; its environment is empty), and ExactLattice(M, N, d),
    exact_lattice.hpp:48-57.  M and N are not negative.  random::normal<T>(0, 1) is a generator with a state that all sites share. *)
From Coq Require Import List Bool Arith.
From Verif Require Import Base.Outcome Base.SMap Model.Symmetry Model.Edge Model.Core Model.Elementwise Model.Auxiliaries Model.Spins Model.SimpleTensor Model.Exact.
From Verif Require Model.SimpleUpdate.
Import ListNotations.

Section NetworkNew.
  Context {R V St : Type} {RR : Scalar R}.
  Notation tens := (tensor unit R).
  Variables (vzero : V) (greater : V -> V -> bool) (of_real : V -> R) (abs : R -> V).
  (** the contents of memory that was not written yet; the generator *)
  Variables (junk : R) (g : St -> R * St).

  (** name_list and dimension_list, 45-61 *)
  Definition new_legs (M N D d i j : nat) : list (name * nat) :=
    [(phys, d)] ++ (if negb (Nat.eqb i 0) then [(nm Up 0, D)] else []) ++ (if negb (Nat.eqb j 0) then [(nm Lft 0, D)] else []) ++
    (if negb (Nat.eqb i (M - 1)) then [(nm Down 0, D)] else []) ++ (if negb (Nat.eqb j (N - 1)) then [(nm Rgt 0, D)] else []).
  (** Edge(Size): one entry, the only charge *)
  Definition plain_edge (d : nat) : edge unit := mkEdge false [(tt, d)].
  (** Tensor(names, dimensions).set(generator), then t /= t.norm<-1>(); and the state afterwards *)
  Definition random_tensor (legs : list (name * nat)) (st : St) : res (tens * St) :=
    bind (make_tensor junk (map fst legs) (map (fun nd => plain_edge (snd nd)) legs) false) (fun t =>
    Ok (normal vzero greater of_real abs (set_tensor g st t), snd (generate g (length (concat (map snd (t_blocks t)))) st))).

  (** 42-67 *)
  Fixpoint new_row (M N D d i : nat) (js : list nat) (st : St) : res (list tens * St) :=
    match js with
    | [] => Ok ([], st)
    | j :: js => bind (random_tensor (new_legs M N D d i j) st) (fun ts => bind (new_row M N D d i js (snd ts)) (fun r => Ok (fst ts :: fst r, snd r)))
    end.
  Fixpoint new_rows (M N D d : nat) (is : list nat) (st : St) : res (list (list tens) * St) :=
    match is with
    | [] => Ok ([], st)
    | i :: is => bind (new_row M N D d i (seq 0 N) st) (fun ts => bind (new_rows M N D d is (snd ts)) (fun r => Ok (fst ts :: fst r, snd r)))
    end.
  Definition new_lattice (M N D d : nat) (st : St) : res (list (list tens) * St) := new_rows M N D d (seq 0 M) st.
  (** SimpleUpdateLattice(M, N, D, d) *)
  Definition new_simple (M N D d : nat) (st : St) : res (SimpleUpdate.network (res tens) (res (list (unit * list V))) * St) :=
    bind (new_lattice M N D d st) (fun r => Ok (SimpleUpdate.mkNetwork (map (map Ok) (fst r)) [], snd r)).
  (** ExactLattice(M, N, d), exact_lattice.hpp:48-57 *)
  Definition new_exact (M N d : nat) (st : St) : res (tens * St) := random_tensor (map (fun ij => (site_name (fst ij) (snd ij), d)) (all_sites M N)) st.
End NetworkNew.
