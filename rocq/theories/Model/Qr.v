(** Tensor::qr: include/TAT/qr.hpp.  The LAPACK routines are parameters; None is info <> 0.  Every call of xGEQRF and xGELQF is
    preceded by a workspace query that leaves the matrix alone; the queries and workspaces are not modelled.  The leading dimension
    is the number of rows in every call and is left out.  Sizes are ints in the code (narrowed from Size, lines 417-420); overflow is
    not modelled.  Timers are modelled elsewhere. *)
From Coq Require Import String Ascii List Bool Arith.
From Verif Require Import Base.Outcome Base.SMap Model.Symmetry Model.Edge Model.Core Model.Transpose Model.EdgeOperator.
Import ListNotations.
Local Open Scope string_scope.
Local Open Scope list_scope.

(** rows, columns, matrix (column by column) |-> matrix with reflectors, tau;  rows, columns, reflectors, matrix, tau |-> Q *)
Record qr_lapack (R : Type) : Type := mkQrLapack {
  geqrf : nat -> nat -> list R -> option (list R * list R);
  gelqf : nat -> nat -> list R -> option (list R * list R);
  orgqr : nat -> nat -> nat -> list R -> list R -> option (list R);
  orglq : nat -> nat -> nat -> list R -> list R -> option (list R) }.
Arguments geqrf {R}. Arguments gelqf {R}. Arguments orgqr {R}. Arguments orglq {R}.

(** InternalName<Name>::QR_1, QR_2: name.hpp:146-190 *)
Record qr_names : Type := mkQrNames { i_qr_1 : name; i_qr_2 : name }.

Section Qr.
  Context {S R : Type} {SS : Sym S} {RR : Scalar R}.
  Variable L : qr_lapack R.

  (** std::copy(data + from, data + from + n, ...): what is read *)
  Definition read (data : list R) (from n : nat) : res (list R) := mapM (fun i => get_or_ub (nth_error data (from + i))) (seq 0 n).
  (** a sequence of cells written from the start of a buffer on; the rest of the buffer stays *)
  Definition store (buffer cells : list R) : res (list R) :=
    if Nat.ltb (length buffer) (length cells) then UB else Ok (cells ++ skipn (length cells) buffer).
  Definition ok_or (msg : string) {A : Type} (o : option A) : res A := match o with Some x => Ok x | None => tat_error msg end.

  (** calculate_qr_kernel, lines 189-284.  The cells of data_1 and data_2 are written from the first to the last, each once, by the
      loops of lines 228-230, 237-240, 266, 277-281 *)
  Definition qr_kernel (m n min : nat) (data data_1 data_2 : list R) (use_qr : bool) : res (list R * list R) :=
    if use_qr then
      bind (ok_or "Error in LQ" (gelqf L n m data)) (fun at_ =>
      let '(data, tau) := at_ in
      bind (mapM (fun i => read data (i * n) min) (seq 0 m)) (fun rows =>
      bind (store data_1 (concat rows)) (fun data_1 =>
      bind (ok_or "Error in LQ" (orglq L min m min data_1 tau)) (fun data_1 =>
      bind (mapM (fun i => bind (read data (i * n + i) (n - i)) (fun tail => Ok (repeat rzero i ++ tail))) (seq 0 min)) (fun rows =>
      bind (store data_2 (concat rows)) (fun data_2 => Ok (data_1, data_2)))))))
    else
      bind (ok_or "Error in QR" (geqrf L n m data)) (fun at_ =>
      let '(data, tau) := at_ in
      bind (read data 0 (n * min)) (fun cells =>
      bind (store data_2 cells) (fun data_2 =>
      bind (ok_or "Error in QR" (orgqr L n min min data_2 tau)) (fun data_2 =>
      bind (mapM (fun i => bind (read data (n * i) (i + 1)) (fun head => Ok (head ++ repeat rzero (min - (i + 1))))) (seq 0 min)) (fun rows =>
      bind (read data (n * min) (n * m - n * min)) (fun rest =>
      bind (store data_1 (concat rows ++ rest)) (fun data_1 => Ok (data_1, data_2)))))))).

  (** calculate_qr, lines 286-310; [junk]: contents of a new vector *)
  Definition calculate_qr (junk : R) (m n min : nat) (data data_1 data_2 : list R) (use_qr : bool) : res (list R * list R) :=
    if Nat.ltb n m then
      bind (matrix_transpose m n data (repeat junk (n * m))) (fun new_data =>
      bind (qr_kernel n m min new_data (repeat junk (n * min)) (repeat junk (min * m)) (negb use_qr)) (fun old =>
      bind (matrix_transpose n min (fst old) data_2) (fun data_2 =>
      bind (matrix_transpose min m (snd old) data_1) (fun data_1 => Ok (data_1, data_2)))))
    else qr_kernel m n min data data_1 data_2 use_qr.

  (** lines 398-406: the common edges, from the merged tensor *)
  Definition common_edges (t : tensor S R) : res (edge S * edge S) :=
    bind (get_or_ub (nth_error (t_edges t) 0)) (fun e0 =>
    bind (get_or_ub (nth_error (t_edges t) 1)) (fun e1 =>
    bind (foldM (fun st kb =>
      let '(c1, c2) := st in
      bind (get_or_ub (nth_error (fst kb) 0)) (fun s0 =>
      bind (get_or_ub (nth_error (fst kb) 1)) (fun s1 =>
      bind (at_or_throw (mfind s0 (emap e0))) (fun m =>
      bind (at_or_throw (mfind s1 (emap e1))) (fun n =>
      let k := if Nat.ltb n m then n else m in
      Ok (mset s1 k c1, mset s0 k c2)))))) (t_blocks t) ([], [])) (fun c =>
    Ok (mkEdge false (fst c), mkEdge false (snd c))))).

  (** lines 413-424 for one block *)
  Definition qr_block (junk : R) (e0 e1 : edge S) (use_qr : bool) (st : list (list S * list R) * list (list S * list R)) (kb : list S * list R)
      : res (list (list S * list R) * list (list S * list R)) :=
    let '(key, data) := kb in
    let '(b1, b2) := st in
    bind (at_or_throw (mfind key b1)) (fun d1 =>
    bind (at_or_throw (mfind key b2)) (fun d2 =>
    bind (get_or_ub (nth_error key 0)) (fun s0 =>
    bind (get_or_ub (nth_error key 1)) (fun s1 =>
    bind (at_or_throw (mfind s0 (emap e0))) (fun m =>
    bind (at_or_throw (mfind s1 (emap e1))) (fun n =>
    let k := if Nat.ltb n m then n else m in
    if Nat.eqb (m * n) 0 then Ok (b1, b2) else
    bind (calculate_qr junk m n k data d1 d2 use_qr) (fun d => Ok (mset key (fst d) b1, mset key (snd d) b2)))))))).

  (** Tensor::qr, lines 313-447.  free_name_set is given as a list; names in it that the tensor does not have only cause a warning *)
  Definition qr (E : @env R) (I : qr_names) (t : tensor S R) (direction : ascii) (free : list name) (common_q common_r : name)
      : res (tensor S R * tensor S R) :=
    bind (if (Ascii.eqb direction "r" || Ascii.eqb direction "R")%char then Ok true
          else if (Ascii.eqb direction "q" || Ascii.eqb direction "Q")%char then Ok false
          else tat_error "Invalid direction in QR") (fun use_r_name =>
    let names := t_names t in
    let use_qr := is_nil names || Bool.eqb (mem_name (last names 0) free) use_r_name in
    let second n := Bool.eqb (Bool.eqb (mem_name n free) use_r_name) use_qr in
    let legs := combine names (t_edges t) in
    (* lines 352-390 *)
    let legs1 := filter (fun ne => negb (second (fst ne))) legs in
    let legs2 := filter (fun ne => second (fst ne)) legs in
    let name1 := map fst legs1 in let name2 := map fst legs2 in
    let rev1 := if is_fermi then map fst (filter (fun ne => earrow (snd ne)) legs1) else [] in
    let rev2 := if is_fermi then map fst (filter (fun ne => earrow (snd ne)) legs2) else [] in
    let rev_origin := if is_fermi then map fst (filter (fun ne => earrow (snd ne)) legs) else [] in
    let com1 := if use_qr : bool then common_q else common_r in
    let com2 := if use_qr : bool then common_r else common_q in
    let Q1 := i_qr_1 I in let Q2 := i_qr_2 I in
    (* lines 391-396 *)
    bind (edge_operator E t (mkArgs [] [] rev_origin (of_list [(Q1, name1); (Q2, name2)]) [Q1; Q2] false [] [] [] [] [])) (fun merged =>
    bind (common_edges merged) (fun ce =>
    bind (get_or_ub (nth_error (t_edges merged) 0)) (fun e0 =>
    bind (get_or_ub (nth_error (t_edges merged) 1)) (fun e1 =>
    (* lines 407-412 *)
    bind (make_tensor (env_junk E) [Q1; com1] [e0; fst ce] false) (fun t1 =>
    bind (make_tensor (env_junk E) [com2; Q2] [snd ce; e1] false) (fun t2 =>
    bind (get_or_ub (nth_error (t_edges t1) 0)) (fun f0 =>
    bind (get_or_ub (nth_error (t_edges t2) 1)) (fun f1 =>
    bind (foldM (qr_block (env_junk E) f0 f1 use_qr) (t_blocks merged) (t_blocks t1, t_blocks t2)) (fun blocks =>
    (* lines 429-446 *)
    let rev1' := if is_fermi && use_qr then common_q :: rev1 else rev1 in
    let rev2' := if is_fermi && negb use_qr then common_q :: rev2 else rev2 in
    let parts l := map (fun ne => (fst ne, mkEdge false (emap (snd ne)))) l in
    bind (edge_operator E (mkTensor (t_names t1) (mkCore (t_edges t1) (fst blocks)))
            (mkArgs [] [(Q1, parts legs1)] rev1' [] (name1 ++ [com1]) false [] [] [] [] [])) (fun n1 =>
    bind (edge_operator E (mkTensor (t_names t2) (mkCore (t_edges t2) (snd blocks)))
            (mkArgs [] [(Q2, parts legs2)] rev2' [] (com2 :: name2) false [] (if use_qr then [] else [common_q]) [] [] [])) (fun n2 =>
    Ok (if use_qr then (n1, n2) else (n2, n1)))))))))))))).
End Qr.
