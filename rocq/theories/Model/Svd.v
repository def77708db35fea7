(** Tensor::svd: include/TAT/svd.hpp, without the macro TAT_USE_SINGULAR_MATRIX.  The LAPACK routine is a parameter; it is preceded by
    a workspace query that leaves the matrix alone; queries and workspaces are not modelled.  An error of LAPACK is only a warning by
    default (TAT.hpp:154): the flag of the result says whether one was given, and the buffers then hold whatever LAPACK left there.
    Sizes are ints in the code (lines 342-345); overflow is not modelled.  Timers are modelled elsewhere. *)
From Coq Require Import String List Bool Arith.
From Verif Require Import Base.Outcome Base.SMap Model.Symmetry Model.Edge Model.Core Model.Transpose Model.EdgeOperator Model.SvdCut Model.Qr.
Import ListNotations.
Local Open Scope list_scope.

(** InternalName<Name>::SVD_U, SVD_V: name.hpp:146-190 *)
Record svd_names : Type := mkSvdNames { i_svd_u : name; i_svd_v : name }.

Section Svd.
  Context {S R V : Type} {SS : Sym S} {RR : Scalar R}.
  (** xGESVD("S", "S"): rows, columns, matrix (column by column) |-> whether info = 0, singular values, U, VT (column by column) *)
  Variable gesvd : nat -> nat -> list R -> bool * (list V * list R * list R).
  Variables (vzero : V) (greater : V -> V -> bool).

  (** calculate_svd_kernel, lines 165-248: the transposed matrix is handed over, so U goes to vt and VT to u.  The result: u, s, vt,
      whether a warning was given *)
  Definition svd_kernel (m n : nat) (data u : list R) (s : list V) (vt : list R) : res (list R * list V * list R * bool) :=
    let '(ok, (s', u', vt')) := gesvd n m data in
    bind (store s s') (fun s =>
    bind (store vt u') (fun vt =>
    bind (store u vt') (fun u => Ok (u, s, vt, negb ok)))).

  (** calculate_svd, lines 135-163; [junk]: contents of a new vector *)
  Definition calculate_svd (junk : R) (m n min : nat) (data u : list R) (s : list V) (vt : list R) : res (list R * list V * list R * bool) :=
    if Nat.ltb n m then
      bind (matrix_transpose m n data (repeat junk (n * m))) (fun new_a =>
      bind (svd_kernel n m new_a (repeat junk (n * min)) s (repeat junk (min * m))) (fun old =>
      let '(old_u, s, old_vt, w) := old in
      bind (matrix_transpose n min old_u vt) (fun vt =>
      bind (matrix_transpose min m old_vt u) (fun u => Ok (u, s, vt, w)))))
    else svd_kernel m n data u s vt.

  (** lines 338-352 for one block; [vjunk]: contents of a new vector of real numbers *)
  Definition svd_state : Type := list (list S * list R) * list (list S * list R) * list (S * list V) * bool.
  Definition svd_block (junk : R) (vjunk : V) (e0 e1 : edge S) (put_v_right : bool) (st : svd_state) (kb : list S * list R) : res svd_state :=
    let '(key, data) := kb in
    let '(b1, b2, sing, w) := st in
    bind (at_or_throw (mfind key b1)) (fun d1 =>
    bind (at_or_throw (mfind key b2)) (fun d2 =>
    bind (get_or_ub (nth_error key 0)) (fun s0 =>
    bind (get_or_ub (nth_error key 1)) (fun s1 =>
    bind (at_or_throw (mfind s0 (emap e0))) (fun m =>
    bind (at_or_throw (mfind s1 (emap e1))) (fun n =>
    let k := if Nat.ltb n m then n else m in
    let at_ := if put_v_right then s1 else s0 in
    let s := repeat vjunk k in
    if Nat.eqb (m * n) 0 then Ok (b1, b2, mset at_ s sing, w) else
    bind (calculate_svd junk m n k data d1 s d2) (fun d =>
    let '(d1, s, d2, w') := d in Ok (mset key d1 b1, mset key d2 b2, mset at_ s sing, w || w')))))))).

  (** Tensor::svd, lines 251-426.  free_name_set_u is given as a list; names in it that the tensor does not have only cause a warning.
      [cut]: None is Size(-1).  The common edges are computed as in qr (lines 321-330) *)
  Definition svd (E : @env R) (vjunk : V) (I : svd_names) (t : tensor S R) (free : list name) (common_u common_v : name) (cut : option nat)
      : res (tensor S R * list (S * list V) * tensor S R * bool) :=
    let names := t_names t in
    let legs := combine names (t_edges t) in
    (* lines 282-309 *)
    let legs_u := filter (fun ne => mem_name (fst ne) free) legs in
    let legs_v := filter (fun ne => negb (mem_name (fst ne) free)) legs in
    let name_u := map fst legs_u in let name_v := map fst legs_v in
    let rev_u := if is_fermi then map fst (filter (fun ne => earrow (snd ne)) legs_u) else [] in
    let rev_v := if is_fermi then map fst (filter (fun ne => earrow (snd ne)) legs_v) else [] in
    let rev_origin := if is_fermi then map fst (filter (fun ne => earrow (snd ne)) legs) else [] in
    let put_v_right := is_nil name_v || Nat.eqb (last name_v 0) (last names 0) in
    let iu := i_svd_u I in let iv := i_svd_v I in
    (* lines 311-318 *)
    bind (edge_operator E t (mkArgs [] [] rev_origin (of_list [(iu, name_u); (iv, name_v)]) (if put_v_right then [iu; iv] else [iv; iu]) false [] [] [] [] [])) (fun merged =>
    bind (common_edges merged) (fun ce =>
    bind (get_or_ub (nth_error (t_edges merged) 0)) (fun e0 =>
    bind (get_or_ub (nth_error (t_edges merged) 1)) (fun e1 =>
    (* lines 331-336 *)
    bind (make_tensor (env_junk E) (if put_v_right then [iu; common_u] else [iv; common_v]) [e0; fst ce] false) (fun t1 =>
    bind (make_tensor (env_junk E) (if put_v_right then [common_v; iv] else [common_u; iu]) [snd ce; e1] false) (fun t2 =>
    bind (get_or_ub (nth_error (t_edges t1) 0)) (fun f0 =>
    bind (get_or_ub (nth_error (t_edges t2) 1)) (fun f1 =>
    bind (foldM (svd_block (env_junk E) vjunk f0 f1 put_v_right) (t_blocks merged) (t_blocks t1, t_blocks t2, [], false)) (fun st =>
    let '(b1, b2, sing, w) := st in
    (* lines 354-389 *)
    bind (svd_cut vzero greater sing cut) (fun remain =>
    let '(remain_u, remain_v, sing) := remain in
    (* lines 391-417 *)
    let tensor_1 := mkTensor (t_names t1) (mkCore (t_edges t1) b1) in
    let tensor_2 := mkTensor (t_names t2) (mkCore (t_edges t2) b2) in
    let tensor_u := if put_v_right then tensor_1 else tensor_2 in
    let tensor_v := if put_v_right then tensor_2 else tensor_1 in
    let parts l := map (fun ne => (fst ne, mkEdge false (emap (snd ne)))) l in
    bind (edge_operator E tensor_u
            (mkArgs [] [(iu, parts legs_u)] (if is_fermi then common_u :: rev_u else rev_u) [] (name_u ++ [common_u]) false
               [] (if put_v_right then [] else [common_u]) [] [] [(common_u, remain_u)])) (fun u =>
    bind (edge_operator E tensor_v
            (mkArgs [] [(iv, parts legs_v)] rev_v [] (common_v :: name_v) false [] [] [] [] [(common_v, remain_v)])) (fun v =>
    Ok (u, sing, v, w))))))))))))).
End Svd.
