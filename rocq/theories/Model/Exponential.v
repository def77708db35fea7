(** include/TAT/exponential.hpp: the exponential of a matrix (lines 55-153) and of a tensor (lines 155-242). *)
From Coq Require Import String List Bool Arith ZArith.
From Verif Require Import Base.Outcome Base.SMap Model.Symmetry Model.Edge Model.Core Model.Transpose Model.EdgeOperator Model.Contract.
Import ListNotations.

(** What the code asks of the scalar type and its real type.  trunc_log2 x: int(std::log2(x)), None where the conversion to int is
    undefined (x = 0, infinity or NaN).  of_int: the conversion from int. *)
Class ExpScalar (R : Type) : Type := {
  of_int : Z -> R; real : Type; real_zero : real; rabs : R -> real; real_lt : real -> real -> bool; trunc_log2 : real -> option Z }.
(** xGESV with equal leading dimensions n: (info = 0, the contents of B on return) *)
Definition gesv_routine (R : Type) : Type := nat -> nat -> list R -> list R -> bool * list R.

Section Exponential.
  Context {R : Type} {RR : Scalar R} {ER : ExpScalar R}.
  Variable junk : R.                (* contents of a new vector, core.hpp:38-98 *)
  Variable gesv : gesv_routine R.

  Definition read (l : list R) (i : nat) : res R := get_or_ub (nth_error l i).
  Definition write (l : list R) (i : nat) (v : R) : res (list R) := get_or_ub (update l i v).

  (** linear_solve, 55-72.  In the default configuration a failure is only reported on stderr (TAT.hpp:154). *)
  Definition linear_solve (n : nat) (A : list R) (nrhs : nat) (B X : list R) : res (list R) :=
    bind (matrix_transpose n n A (repeat junk (n * n))) (fun AT =>
    bind (matrix_transpose n nrhs B (repeat junk (n * nrhs))) (fun BT =>
    matrix_transpose nrhs n (snd (gesv n nrhs AT BT)) X)).

  (** max_of_abs, 74-82 *)
  Definition max_of_abs (data : list R) (n : nat) : res real :=
    foldM (fun result i => bind (read data i) (fun v => Ok (if real_lt result (rabs v) then rabs v else result))) (seq 0 (n * n)) real_zero.

  (** initialize_identity_matrix, 84-93.  n is unsigned: for n = 0 the bound n - 1 is 2^64 - 1 and the loop runs out of the buffer. *)
  Definition identity_row (n : nat) (st : list R * nat) : res (list R * nat) :=
    bind (write (fst st) (snd st) rone) (fun data =>
    bind (foldM (fun data j => write data (snd st + 1 + j) rzero) (seq 0 n) data) (fun data =>
    Ok (data, snd st + 1 + n))).
  Definition initialize_identity_matrix (data : list R) (n : nat) : res (list R) :=
    if Nat.eqb n 0 then UB else
    bind (foldM (fun st _ => identity_row n st) (seq 0 (n - 1)) (data, 0)) (fun st => write (fst st) (snd st) rone).

  (** 1 << j in int; C++17: 1 << 31 is converted from unsigned *)
  Definition shifted (j : Z) : res Z :=
    if (j <? 31)%Z then Ok (2 ^ j)%Z else if (j =? 31)%Z then Ok (- 2 ^ 31)%Z else UB.
  (** signed overflow *)
  Definition int (z : Z) : res Z := if ((- 2 ^ 31 <=? z) && (z <? 2 ^ 31))%Z then Ok z else UB.

  (** the matrix product of lines 131 and 150; narrowing of n to int is not modelled *)
  Definition product (n : nat) (a b c : list R) : res (list R) := gemm false false n n n rone a 0 n b 0 n c 0 n.

  (** the state of the loop of lines 122-138 *)
  Record pade : Type := mkPade { p_c : R; p_x1 : list R; p_x2 : list R; p_n : list R; p_d : list R }.
  Definition add_term (n : nat) (c d : R) (x N D : list R) : res (list R * list R) :=
    foldM (fun nd i =>
      bind (read x i) (fun xi =>
      bind (read (fst nd) i) (fun ni => bind (write (fst nd) i (radd ni (rmul c xi))) (fun N =>
      bind (read (snd nd) i) (fun di => bind (write (snd nd) i (radd di (rmul d xi))) (fun D =>
      Ok (N, D))))))) (seq 0 (n * n)) (N, D).
  Definition pade_step (n : nat) (A : list R) (q : Z) (s : pade) (k : nat) : res pade :=
    let kz := Z.of_nat k in
    bind (int (2 * q)) (fun q2 =>
    bind (int ((q2 - kz + 1) * kz)) (fun den =>
    let c := rdiv (rmul (p_c s) (of_int (q - kz + 1))) (of_int den) in
    let odd := Nat.odd k in
    bind (product n (if odd then p_x1 s else p_x2 s) A (if odd then p_x2 s else p_x1 s)) (fun x =>
    bind (add_term n c (if odd then ropp c else c) x (p_n s) (p_d s)) (fun nd =>
    Ok (mkPade c (if odd then p_x1 s else x) (if odd then x else p_x2 s) (fst nd) (snd nd)))))).
  Definition pade_loop (n : nat) (A : list R) (q : Z) (s : pade) : res pade :=
    foldM (pade_step n A q) (seq 1 (Z.to_nat q)) s.

  (** lines 145-151: F1, F2 and F *)
  Record buffers : Type := mkBuffers { b_1 : list R; b_2 : list R; b_f : list R }.
  Definition square_step (n j : nat) (b : buffers) (k : nat) : res buffers :=
    let old := if Nat.odd k then b_1 b else b_2 b in
    if Nat.eqb k j then bind (product n old old (b_f b)) (fun x => Ok (mkBuffers (b_1 b) (b_2 b) x))
    else if Nat.odd k then bind (product n old old (b_2 b)) (fun x => Ok (mkBuffers (b_1 b) x (b_f b)))
    else bind (product n old old (b_1 b)) (fun x => Ok (mkBuffers x (b_2 b) (b_f b))).
  Definition squaring (n j : nat) (b : buffers) : res buffers := foldM (square_step n j) (seq 1 j) b.

  (** line 99 *)
  Definition scaling (A : list R) (n : nat) : res Z :=
    bind (max_of_abs A n) (fun m => bind (get_or_ub (trunc_log2 m)) (fun l => bind (int (1 + l)) (fun l => Ok (Z.max 0 l)))).
  Definition scale (n : nat) (parameter : R) (A : list R) : res (list R) :=
    foldM (fun A i => bind (read A i) (fun v => write A i (rmul v parameter))) (seq 0 (n * n)) A.

  (** matrix_exponential, 95-153: (A, F) on return *)
  Definition matrix_exponential (n : nat) (A F : list R) (q : Z) : res (list R * list R) :=
    bind (scaling A n) (fun j =>
    bind (shifted j) (fun two_j =>
    bind (scale n (rdiv (of_int 1) (of_int two_j)) A) (fun A =>
    let fresh := repeat junk (n * n) in
    bind (initialize_identity_matrix fresh n) (fun D =>
    bind (initialize_identity_matrix fresh n) (fun N =>
    bind (initialize_identity_matrix fresh n) (fun X1 =>
    bind (pade_loop n A q (mkPade (of_int 1) X1 fresh N D)) (fun s =>
    let j := Z.to_nat j in
    bind (if Nat.eqb j 0 then bind (linear_solve n (p_d s) n (p_n s) F) (fun r => Ok (mkBuffers fresh fresh r))
          else bind (linear_solve n (p_d s) n (p_n s) fresh) (fun r => Ok (mkBuffers r fresh F))) (fun b =>
    bind (squaring n j b) (fun b => Ok (A, b_f b)))))))))).
End Exponential.

(** ** Tensor::exponential, 155-242.  The first argument is a set of pairs of names, given as the list of its elements in the order of
    iteration. *)
Section Tensor.
  Context {S R : Type} {SS : Sym S} {RR : Scalar R} {ER : ExpScalar R}.

  Definition mentions (n : name) (p : name * name) : bool := Nat.eqb (fst p) n || Nat.eqb (snd p) n.
  (** one turn of the loop of lines 176-209; valid_index is kept as the list of the indices set to false, merge_1 and merge_2 as the
      list of the pairs written so far from the end on; one more than half_rank of them is a write before the beginning *)
  Definition exp_step (t : tensor S R) (pairs : list (name * name)) (st : list nat * list (name * name)) (i : nat) : res (list nat * list (name * name)) :=
    let '(invalid, found) := st in
    if mem_name i invalid then Ok st else
    bind (get_or_ub (nth_error (t_names t) i)) (fun n =>
    match find (mentions n) pairs with
    | None => Ok st
    | Some (a, b) =>
      bind (at_or_throw (mfind a (construct_name_to_index (t_names t)))) (fun ia =>
      bind (at_or_throw (mfind b (construct_name_to_index (t_names t)))) (fun ib =>
      if Nat.ltb (length found) (Nat.div2 (length (t_names t)))
      then Ok ((if Nat.eqb a n then ib else ia) :: invalid, (a, b) :: found) else UB))
    end).
  Definition exp_pairs (t : tensor S R) (pairs : list (name * name)) : res (list (name * name)) :=
    bind (foldM (exp_step t pairs) (rev (seq 0 (length (t_names t)))) ([], [])) (fun st => Ok (snd st)).

  (** [no_name]: a default constructed name; X1 X2: InternalName::Exp_1 and Exp_2 *)
  Variables (E : @env R) (gesv : gesv_routine R) (no_name X1 X2 : name).
  (** lines 229-234 for one block *)
  Definition exp_block (merged : tensor S R) (q : Z) (kb : list S * list R) : res (list S * list R) :=
    bind (get_or_ub (nth_error (t_edges merged) 0)) (fun e =>
    bind (get_or_ub (nth_error (fst kb) 0)) (fun s =>
    bind (at_or_throw (mfind s (emap e))) (fun n =>
    bind (matrix_exponential (env_junk E) gesv n (snd kb) (repeat (env_junk E) (length (snd kb))) q) (fun af =>
    Ok (fst kb, snd af))))).
  Definition exponential (t : tensor S R) (pairs : list (name * name)) (q : Z) : res (tensor S R) :=
    bind (exp_pairs t pairs) (fun found =>
    let half := Nat.div2 (length (t_names t)) in
    let missing := half - length found in
    let merge_1 := repeat no_name missing ++ map fst found in
    let merge_2 := repeat no_name missing ++ map snd found in
    let edge_of n := match mfind n (combine (t_names t) (t_edges t)) with Some e => mkEdge false (emap e) | None => mkEdge false [] end in
    let split l := map (fun n => (n, mkEdge false [])) (repeat no_name missing) ++ map (fun n => (n, edge_of n)) l in
    let reversed := if is_fermi then map fst (filter (fun ne => earrow (snd ne)) (combine (t_names t) (t_edges t))) else [] in
    (* line 217: back() of an empty vector *)
    bind (match t_names t with
          | [] => Ok true
          | _ => match merge_1 with [] => UB | _ => Ok (Nat.eqb (last (t_names t) 0) (last merge_1 0)) end
          end) (fun swap : bool =>
    bind (edge_operator E t (mkArgs [] [] reversed (of_list [(X1, merge_1); (X2, merge_2)]) (if swap then [X2; X1] else [X1; X2])
            false [] [] [] [] [])) (fun merged =>
    bind (mapM (exp_block merged q) (t_blocks merged)) (fun blocks =>
    edge_operator E (mkTensor (t_names merged) (mkCore (t_edges merged) blocks))
      (mkArgs [] (of_list [(X1, split (map fst found)); (X2, split (map snd found))]) reversed [] (if swap then merge_2 ++ merge_1 else merge_1 ++ merge_2)
         false [] [] [] [] []))))).
End Tensor.
