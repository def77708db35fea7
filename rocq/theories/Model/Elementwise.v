(** Element-wise operations: include/TAT/scalar.hpp and set/test/norm of include/TAT/tensor.hpp. *)
From Coq Require Import String List Bool Arith ZArith.
From Verif Require Import Base.Outcome Base.SMap Model.Symmetry Model.Edge Model.Core Model.EdgeOperator.
Import ListNotations.

(** std::vector comparison of names (scalar.hpp:45, tensor_1.names != tensor_2.names) *)
Definition names_eqb (l1 l2 : list name) : bool :=
  Nat.eqb (length l1) (length l2) && forallb (fun xy => Nat.eqb (fst xy) (snd xy)) (combine l1 l2).

Section Elementwise.
  Context {S R : Type} {SS : Sym S} {RR : Scalar R}.

  (** operator== of std::map and of edges, edge.hpp:158-160 and 241-243 *)
  Definition map_eqb (m1 m2 : list (S * nat)) : bool :=
    Nat.eqb (length m1) (length m2)
    && forallb (fun xy => eqb (fst (fst xy)) (fst (snd xy)) && Nat.eqb (snd (fst xy)) (snd (snd xy))) (combine m1 m2).
  Definition edge_eqb (e1 e2 : edge S) : bool :=
    map_eqb (emap e1) (emap e2) && (negb is_fermi || Bool.eqb (earrow e1) (earrow e2)).
  Definition edges_eqb (l1 l2 : list (edge S)) : bool :=
    Nat.eqb (length l1) (length l2) && forallb (fun xy => edge_eqb (fst xy) (snd xy)) (combine l1 l2).

  (** scalar.hpp:55-63: the first edge with the segments of the second added *)
  Definition union_edge (e1 e2 : edge S) : res (edge S) :=
    bind (foldM (fun m sd =>
            match mfind (fst sd) m with
            | None => Ok (mset (fst sd) (snd sd) m)
            | Some d => if Nat.eqb d (snd sd) then Ok m
                        else tat_error "Try to do scalar operator on two tensors which edges not compatible"
            end) (emap e2) (emap e1)) (fun m => Ok (mkEdge (earrow e1) m)).

  (** one pass for (j = 0; j < n; j++) c[j] = ..., scalar.hpp:77-79, 83-85, 92-94; reading beyond an operand is UB *)
  Definition loop_ab (op : R -> R -> R) (a b : list R) (n : nat) : res (list R) :=
    mapM (fun j => bind (get_or_ub (nth_error a j)) (fun x => bind (get_or_ub (nth_error b j)) (fun y => Ok (op x y)))) (seq 0 n).
  Definition loop_a (f : R -> R) (a : list R) (n : nat) : res (list R) :=
    mapM (fun j => bind (get_or_ub (nth_error a j)) (fun x => Ok (f x))) (seq 0 n).

  (** the four cases of scalar.hpp:72-99 (x = y = 0) *)
  Definition scalar_block (op : R -> R -> R) (found1 found2 : option (list R)) (n : nat) : res (list R) :=
    match found1, found2 with
    | Some a, Some b => loop_ab op a b n
    | Some a, None => loop_a (fun x => op x rzero) a n
    | None, Some b => loop_a (fun y => op rzero y) b n
    | None, None => Ok (repeat rzero n)
    end.

  (** fill the blocks of a fresh tensor one after the other *)
  Definition fill_blocks (f : list S -> nat -> res (list R)) (t : tensor S R) : res (tensor S R) :=
    bind (mapM (fun kb => bind (f (fst kb) (length (snd kb))) (fun d => Ok (fst kb, d))) (t_blocks t)) (fun bs =>
    Ok (mkTensor (t_names t) (mkCore (t_edges t) bs))).

  (** scalar.hpp:44-48 and 158-162: the second operand in the order of names of the first *)
  Definition aligned (E : @env R) (names : list name) (t2 : tensor S R) : res (tensor S R) :=
    if names_eqb names (t_names t2) then Ok t2 else transpose E t2 names.

  (** OP(tensor, tensor), scalar.hpp:34-102.  Simplified: both operands have one scalar type.
      edges.at(i) of line 57 cannot fail: an aligned tensor has as many edges. *)
  Definition scalar_op (E : @env R) (op : R -> R -> R) (t1 t2 : tensor S R) : res (tensor S R) :=
    if negb (Nat.eqb (length (t_names t1)) (length (t_names t2)))
    then tat_error "Try to do scalar operator on two different rank tensor"
    else
    bind (aligned E (t_names t1) t2) (fun t2' =>
    bind (if edges_eqb (t_edges t1) (t_edges t2') then Ok (t_edges t1)
          else mapM (fun ee => union_edge (fst ee) (snd ee)) (combine (t_edges t1) (t_edges t2'))) (fun edges =>
    bind (make_tensor (env_junk E) (t_names t1) edges false) (fun r =>
    fill_blocks (fun key n => scalar_block op (mfind key (t_blocks t1)) (mfind key (t_blocks t2')) n) r))).

  (** OP(tensor, number), scalar.hpp:103-118, and OP(number, tensor), scalar.hpp:119-134, as f a = a op y or x op a *)
  Definition scalar_number (E : @env R) (f : R -> R) (t : tensor S R) : res (tensor S R) :=
    bind (make_tensor (env_junk E) (t_names t) (t_edges t) false) (fun r =>
    fill_blocks (fun key n => bind (at_or_throw (mfind key (t_blocks t))) (fun a => loop_a f a n)) r).

  (** in-place OP=(tensor, tensor), scalar.hpp:144-171; the number variant (172-189) is transform.
      Sharing of the core is modelled in Model/Cow.v. *)
  Definition scalar_inplace (E : @env R) (op : R -> R -> R) (t1 t2 : tensor S R) : res (tensor S R) :=
    bind (aligned E (t_names t1) t2) (fun t2' =>
    if negb (edges_eqb (t_edges t1) (t_edges t2'))
    then tat_error "Scalar Operator In Different Shape Tensor, Maybe You Need Outplace Operator"
    else
    bind (mapM (fun kb => bind (at_or_throw (mfind (fst kb) (t_blocks t2'))) (fun b =>
                          bind (loop_ab op (snd kb) b (length (snd kb))) (fun d => Ok (fst kb, d)))) (t_blocks t1)) (fun bs =>
    Ok (mkTensor (t_names t1) (mkCore (t_edges t1) bs)))).

  (** Tensor::set, tensor.hpp:307-311: transform with a generator, whose state runs through all blocks in map order *)
  Fixpoint generate {St : Type} (g : St -> R * St) (n : nat) (st : St) : list R * St :=
    match n with
    | O => ([], st)
    | Datatypes.S n' => let (v, st1) := g st in let (l, st2) := generate g n' st1 in (v :: l, st2)
    end.
  Fixpoint set_blocks {St : Type} (g : St -> R * St) (bs : list (list S * list R)) (st : St) : list (list S * list R) :=
    match bs with
    | [] => []
    | (key, b) :: bs' => let (d, st') := generate g (length b) st in (key, d) :: set_blocks g bs' st'
    end.
  Definition set_tensor {St : Type} (g : St -> R * St) (st : St) (t : tensor S R) : tensor S R :=
    mkTensor (t_names t) (mkCore (t_edges t) (set_blocks g (t_blocks t) st)).
  (** Tensor::test, tensor.hpp:333-339 *)
  Definition test_tensor (first step : R) (t : tensor S R) : tensor S R :=
    set_tensor (fun v => (v, radd v step)) first t.

  (** Tensor::norm, tensor.hpp:416-448.  K: the real type; abs, power and root are the library functions of the case
      (p = 1: std::abs; p = 2: std::norm; others std::pow), left abstract. *)
  Section Norm.
    Variables (K : Type) (kzero : K) (kadd : K -> K -> K) (kltb : K -> K -> bool) (ksize : nat -> K).
    Definition norm_max (abs : R -> K) (t : tensor S R) : K :=
      fold_left (fun acc kb => fold_left (fun acc x => if kltb acc (abs x) then abs x else acc) (snd kb) acc) (t_blocks t) kzero.
    Definition norm_zero (t : tensor S R) : K :=
      fold_left (fun acc kb => kadd acc (ksize (length (snd kb)))) (t_blocks t) kzero.
    Definition norm_power (power : R -> K) (root : K -> K) (t : tensor S R) : K :=
      root (fold_left (fun acc kb => fold_left (fun acc x => kadd acc (power x)) (snd kb) acc) (t_blocks t) kzero).
  End Norm.
End Elementwise.
