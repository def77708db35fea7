(** Tensor::contract: include/TAT/contract.hpp.  Only the overloads on one tensor type; the argument is a set of pairs of
    names, given as a list. *)
From Coq Require Import String List Bool Arith ZArith.
From Verif Require Import Base.Outcome Base.SMap Model.Symmetry Model.Edge Model.Core Model.EdgeOperator Model.Elementwise.
Import ListNotations.
Local Open Scope string_scope.
Local Open Scope list_scope.

(** InternalName, name.hpp:200-231: names no user tensor is supposed to use *)
Record internal : Type := mkInternal {
  i_contract_0 : name; i_contract_1 : name; i_contract_2 : name;
  i_trace_1 : name; i_trace_2 : name; i_trace_3 : name }.

Section Contract.
  Context {S R : Type} {SS : Sym S} {RR : Scalar R}.

  (** ** xGEMM: C := alpha * op(A) * op(B), column major, beta = 0 (C is overwritten).  The sum over l is taken in increasing
      order; BLAS leaves the order open, which only matters for inexact arithmetic.  int sizes: narrowing of Size to int
      (contract.hpp:535-537, 760-763) is not modelled. *)
  Definition gemm_entry (ta tb : bool) (k : nat) (a : list R) (abase lda : nat) (b : list R) (bbase ldb i j : nat) : res R :=
    foldM (fun acc l =>
      bind (get_or_ub (nth_error a (abase + (if ta then l + i * lda else i + l * lda)))) (fun x =>
      bind (get_or_ub (nth_error b (bbase + (if tb then j + l * ldb else l + j * ldb)))) (fun y =>
      Ok (radd acc (rmul x y))))) (seq 0 k) rzero.
  Definition gemm (ta tb : bool) (m n k : nat) (alpha : R) (a : list R) (abase lda : nat) (b : list R) (bbase ldb : nat)
      (c : list R) (cbase ldc : nat) : res (list R) :=
    foldM (fun c j =>
      foldM (fun c i =>
        bind (gemm_entry ta tb k a abase lda b bbase ldb i j) (fun v =>
        get_or_ub (update c (cbase + i + j * ldc) (rmul alpha v)))) (seq 0 m) c) (seq 0 n) c.

  (** ** what both variants share *)
  (** lines 307-316 = 599-608: pairs with a missing name are dropped *)
  Definition present_pairs (names1 names2 : list name) (pairs : list (name * name)) : list (name * name) :=
    filter (fun p => mem_name (fst p) names1 && mem_name (snd p) names2) pairs.
  (** lines 409-416 = 687-695 and 417-424 = 696-704 *)
  Definition fit_1 (names1 : list name) (pairs : list (name * name)) : list (name * name) :=
    flat_map (fun n => match find (fun p => Nat.eqb (fst p) n) pairs with Some p => [p] | None => [] end) names1.
  Definition fit_2 (names2 : list name) (pairs : list (name * name)) : list (name * name) :=
    flat_map (fun n => match find (fun p => Nat.eqb (snd p) n) pairs with Some p => [p] | None => [] end) names2.
  (** common.empty() || common.back() == names.back() *)
  Definition at_end (common names : list name) : bool := is_nil common || Nat.eqb (last common 0) (last names 0).
  (** lines 425-447 = 705-727: ordered pairs, put_common_1_right, put_common_2_right *)
  Definition contract_plan (names1 names2 free1 free2 : list name) (pairs : list (name * name)) : list (name * name) * bool * bool :=
    if is_nil free1 then
      let c := fit_2 names2 pairs in (c, true, at_end (map snd c) names2)
    else if is_nil free2 then
      let c := fit_1 names1 pairs in (c, at_end (map fst c) names1, true)
    else if negb (Nat.eqb (last free1 0) (last names1 0)) then
      let c := fit_1 names1 pairs in (c, true, at_end (map snd c) names2)
    else if negb (Nat.eqb (last free2 0) (last names2 0)) then
      let c := fit_2 names2 pairs in (c, at_end (map fst c) names1, true)
    else (fit_2 names2 pairs, false, false).

  Definition edge_of (t : tensor S R) (n : name) : res (edge S) :=
    bind (at_or_throw (mfind n (construct_name_to_index (t_names t)))) (fun i => get_or_ub (nth_error (t_edges t) i)).

  (** ** contract_without_fuse, lines 296-589, for a symmetry other than NoSymmetry (contract does not call it otherwise) *)
  (** delete_unused_dimension, lines 457-483 *)
  Definition delete_unused (this other : edge S) : res (list (S * nat)) :=
    if is_fermi && Bool.eqb (earrow this) (earrow other) then tat_error "Different Fermi Arrow to Contract"
    else foldM (fun dm sd =>
      match mfind (sneg (fst sd)) (emap other) with
      | Some d => if Nat.eqb d (snd sd) then Ok dm else tat_error "Different Dimension to Contract"
      | None => Ok (mset (fst sd) 0 dm)
      end) (emap this) [].
  Definition add_delete (n : name) (dm : list (S * nat)) (del : list (name * list (S * nat))) : list (name * list (S * nat)) :=
    if is_nil dm then del else mset n dm del.
  (** lines 449-487 *)
  Definition deletions (t1 t2 : tensor S R) (common : list (name * name))
      : res (list (name * list (S * nat)) * list (name * list (S * nat))) :=
    foldM (fun del ab =>
      bind (edge_of t1 (fst ab)) (fun e1 =>
      bind (edge_of t2 (snd ab)) (fun e2 =>
      bind (delete_unused e1 e2) (fun d1 =>
      bind (delete_unused e2 e1) (fun d2 =>
      Ok (add_delete (fst ab) d1 (fst del), add_delete (snd ab) d2 (snd del))))))) common ([], []).

  Definition swap_key (key : list S) : list S := match key with [a; b] => [b; a] | _ => key end.

  (** lines 529-564 for one block of the product; the gemm calls, collected in lists and executed after the loop in the code,
      are executed at once here (they write to different blocks and read only the merged tensors) *)
  Definition product_block (put1 put2 : bool) (b1 b2 : list (list S * list R)) (e1 e2 ec : edge S) (kb : list S * list R)
      : res (list S * list R) :=
    let '(key, data) := kb in
    bind (get_or_ub (nth_error key 0)) (fun s0 =>
    bind (get_or_ub (nth_error key 1)) (fun s1 =>
    bind (at_or_throw (mfind (if put1 then key else [s1; s0]) b1)) (fun data1 =>
    bind (at_or_throw (mfind (if put2 then [s1; s0] else key) b2)) (fun data2 =>
    bind (at_or_throw (mfind s0 (emap e1))) (fun m =>
    bind (at_or_throw (mfind s1 (emap e2))) (fun n =>
    bind (at_or_throw (mfind s1 (emap ec))) (fun k =>
    let alpha := if is_fermi && (xorb put2 (negb put1)) && sodd s0 then ropp rone else rone in
    bind (if negb (Nat.eqb m 0) && negb (Nat.eqb n 0) && negb (Nat.eqb k 0) then
            gemm put2 (negb put1) n m k alpha data2 0 (if put2 then k else n) data1 0 (if put1 then k else m) data 0 n
          else if negb (Nat.eqb m 0) && negb (Nat.eqb n 0) then Ok (map (fun _ => rzero) data)
          else Ok data) (fun data' => Ok (key, data'))))))))).

  Definition contract_without_fuse (E : @env R) (I : internal) (t1 t2 : tensor S R) (pairs0 : list (name * name)) : res (tensor S R) :=
    let names1 := t_names t1 in let names2 := t_names t2 in
    let pairs := present_pairs names1 names2 pairs0 in
    if has_dup (map fst pairs) || has_dup (map snd pairs) then tat_error "Duplicated Contract Name" else
    let legs1 := combine names1 (t_edges t1) in let legs2 := combine names2 (t_edges t2) in
    let in1 n := mem_name n (map fst pairs) in let in2 n := mem_name n (map snd pairs) in
    (* lines 332-401 *)
    let flegs1 := filter (fun ne => negb (in1 (fst ne))) legs1 in
    let flegs2 := filter (fun ne => negb (in2 (fst ne))) legs2 in
    let free1 := map fst flegs1 in let free2 := map fst flegs2 in
    let rev1 := if is_fermi then map fst (filter (fun ne => xorb (in1 (fst ne)) (earrow (snd ne))) legs1) else [] in
    let rev2 := if is_fermi then map fst (filter (fun ne => earrow (snd ne)) legs2) else [] in
    let rev_result := if is_fermi then map fst (filter (fun ne => earrow (snd ne)) (flegs1 ++ flegs2)) else [] in
    let '(common, put1, put2) := contract_plan names1 names2 free1 free2 pairs in
    let common1 := map fst common in let common2 := map snd common in
    bind (deletions t1 t2 common) (fun del =>
    let C1 := i_contract_1 I in let C2 := i_contract_2 I in
    (* lines 491-512 *)
    bind (edge_operator E t1 (mkArgs [] [] rev1 (of_list [(C1, free1); (C2, common1)]) (if put1 : bool then [C1; C2] else [C2; C1])
            false [] common1 [] [C2] (fst del))) (fun m1 =>
    bind (edge_operator E t2 (mkArgs [] [] rev2 (of_list [(C2, free2); (C1, common2)]) (if put2 : bool then [C2; C1] else [C1; C2])
            false [] [] [] [] (snd del))) (fun m2 =>
    (* lines 514-518 *)
    bind (get_or_ub (nth_error (t_edges m1) (if put1 then 0 else 1))) (fun e1 =>
    bind (get_or_ub (nth_error (t_edges m2) (if put2 then 0 else 1))) (fun e2 =>
    bind (get_or_ub (nth_error (t_edges m1) (if put1 then 1 else 0))) (fun ec =>
    bind (make_tensor (env_junk E) [C1; C2] [e1; e2] false) (fun p =>
    bind (get_or_ub (nth_error (t_edges p) 0)) (fun p1 =>
    bind (get_or_ub (nth_error (t_edges p) 1)) (fun p2 =>
    bind (mapM (product_block put1 put2 (t_blocks m1) (t_blocks m2) p1 p2 ec) (t_blocks p)) (fun blocks =>
    (* line 586 *)
    edge_operator E (mkTensor (t_names p) (mkCore (t_edges p) blocks))
      (mkArgs [] (of_list [(C1, map (fun ne => (fst ne, mkEdge false (emap (snd ne)))) flegs1);
                           (C2, map (fun ne => (fst ne, mkEdge false (emap (snd ne)))) flegs2)])
         rev_result [] (free1 ++ free2) false [] [] [] [] []))))))))))).

  (** ** contract_with_fuse, lines 591-801 *)
  Definition first_dim (e : edge S) : res nat := get_or_ub (option_map snd (hd_error (emap e))).
  Definition first_block (t : tensor S R) : res (list S * list R) := get_or_ub (hd_error (t_blocks t)).

  Definition contract_with_fuse (E : @env R) (I : internal) (t1 t2 : tensor S R) (pairs0 : list (name * name)) : res (tensor S R) :=
    let names1 := t_names t1 in let names2 := t_names t2 in
    let pairs := present_pairs names1 names2 pairs0 in
    if has_dup (map fst pairs) || has_dup (map snd pairs) then tat_error "Duplicated Contract Name" else
    let legs1 := combine names1 (t_edges t1) in let legs2 := combine names2 (t_edges t2) in
    let in1 n := mem_name n (map fst pairs) in let in2 n := mem_name n (map snd pairs) in
    (* lines 620-648: a std::set enumerates in increasing order *)
    let fuse := map fst (of_list (map (fun n => (n, tt)) (filter (fun n => mem_name n names2 && negb (in1 n) && negb (in2 n)) names1))) in
    bind (mapM (fun n => bind (edge_of t1 n) (fun e1 => bind (edge_of t2 n) (fun e2 =>
                 if edge_eqb e1 e2 then Ok e1 else tat_error "Cannot fuse two edge with different shape"))) fuse) (fun fuse_edges =>
    (* lines 650-679 *)
    let flegs1 := filter (fun ne => negb (in1 (fst ne)) && negb (mem_name (fst ne) fuse)) legs1 in
    let flegs2 := filter (fun ne => negb (in2 (fst ne)) && negb (mem_name (fst ne) fuse)) legs2 in
    let free1 := map fst flegs1 in let free2 := map fst flegs2 in
    let '(common, put1, put2) := contract_plan names1 names2 free1 free2 pairs in
    let common1 := map fst common in let common2 := map snd common in
    let C0 := i_contract_0 I in let C1 := i_contract_1 I in let C2 := i_contract_2 I in
    (* lines 731-750 *)
    bind (edge_operator E t1 (mkArgs [] [] [] (of_list [(C1, free1); (C2, common1); (C0, fuse)])
            (if put1 : bool then [C0; C1; C2] else [C0; C2; C1]) false [] [] [] [] [])) (fun m1 =>
    bind (edge_operator E t2 (mkArgs [] [] [] (of_list [(C2, free2); (C1, common2); (C0, fuse)])
            (if put2 : bool then [C0; C2; C1] else [C0; C1; C2]) false [] [] [] [] [])) (fun m2 =>
    (* lines 752-763 *)
    bind (get_or_ub (nth_error (t_edges m1) 0)) (fun e0 =>
    bind (get_or_ub (nth_error (t_edges m1) (if put1 then 1 else 2))) (fun e1 =>
    bind (get_or_ub (nth_error (t_edges m2) (if put2 then 1 else 2))) (fun e2 =>
    bind (get_or_ub (nth_error (t_edges m1) (if put1 then 2 else 1))) (fun ec =>
    bind (make_tensor (env_junk E) [C0; C1; C2] [e0; e1; e2] false) (fun p =>
    bind (get_or_ub (nth_error (t_edges p) 0)) (fun p0 =>
    bind (get_or_ub (nth_error (t_edges p) 1)) (fun p1 =>
    bind (get_or_ub (nth_error (t_edges p) 2)) (fun p2 =>
    bind (first_dim p0) (fun l =>
    bind (first_dim p1) (fun m =>
    bind (first_dim p2) (fun n =>
    bind (first_dim ec) (fun k =>
    (* lines 767-796 *)
    bind (first_block p) (fun pb =>
    bind (first_block m1) (fun b1 =>
    bind (first_block m2) (fun b2 =>
    bind (if negb (Nat.eqb m 0) && negb (Nat.eqb n 0) && negb (Nat.eqb k 0) then
            foldM (fun data i =>
              gemm put2 (negb put1) n m k rone (snd b2) (k * n * i) (if put2 then k else n) (snd b1) (m * k * i) (if put1 then k else m)
                data (m * n * i) n) (seq 0 l) (snd pb)
          else if negb (Nat.eqb m 0) && negb (Nat.eqb n 0) then Ok (map (fun _ => rzero) (snd pb))
          else Ok (snd pb)) (fun data =>
    (* lines 798-800 *)
    bind (make_tensor (env_junk E) (fuse ++ free1 ++ free2) (fuse_edges ++ map snd flegs1 ++ map snd flegs2) false) (fun r =>
    bind (first_block r) (fun rb =>
    Ok (mkTensor (t_names r) (mkCore (t_edges r) (mset (fst rb) data (t_blocks r))))))))))))))))))))))))).

  (** Tensor::contract, lines 281-294 *)
  Definition contract (E : @env R) (I : internal) (t1 t2 : tensor S R) (pairs : list (name * name)) : res (tensor S R) :=
    if is_nosym then contract_with_fuse E I t1 t2 pairs else contract_without_fuse E I t1 t2 pairs.
End Contract.
