(** The contraction of a square lattice: include/square/auxiliaries_system.hpp.  Tensors have no symmetry.
    The nodes of the lazy graph are plain functions here: that a node returns what its formula gives for the present lattice is the
    business of Model/Lazy.v (C31).  Every site of the lattice is taken to have been set, positions are not negative.  The results
    carry a flag: whether "Error in GESVD" was printed while computing them. *)
From Coq Require Import String Ascii List Bool Arith.
From Verif Require Import Base.Outcome Base.SMap Model.Symmetry Model.Edge Model.Core Model.EdgeOperator Model.Contract Model.Misc Model.Qr Model.Svd.
Import ListNotations.

(** the names "U", "D", "L", "R" (suffix 0), with a digit 1, 2, 3 behind (suffix 1, 2, 3), with a digit 0 behind (suffix 4) *)
Inductive dir := Up | Down | Lft | Rgt.
Definition code (d : dir) : nat := match d with Up => 0 | Down => 1 | Lft => 2 | Rgt => 3 end.
Definition nm (d : dir) (suffix : nat) : name := 4 * suffix + code d.

Definition bindw {A B : Type} (x : res (A * bool)) (f : A -> res (B * bool)) : res (B * bool) :=
  bind x (fun aw => bind (f (fst aw)) (fun bw => Ok (fst bw, snd aw || snd bw))).
Definition quiet {A : Type} (x : res A) : res (A * bool) := bind x (fun a => Ok (a, false)).

Section Auxiliaries.
  Context {R V : Type} {RR : Scalar R}.
  Notation tens := (tensor unit R).
  Variables (E : @env R) (J : internal) (Iq : qr_names) (Is : svd_names).
  Variables (L : qr_lapack R) (gesvd : nat -> nat -> list R -> bool * (list V * list R * list R)).
  Variables (vzero vjunk : V) (greater : V -> V -> bool) (of_real : V -> R).

  (** Tensor<T>(1), tensor.hpp:202-204 *)
  Definition unit_tensor : tens := mkTensor [] (mkCore [] [([], [rone])]).
  (** is_scalar and the conversion to the scalar type, tensor.hpp:221-233 *)
  Definition to_scalar (t : tens) : res R :=
    match t_blocks t with
    | [(_, [v])] => Ok v
    | _ => tat_error "Try to get the only element of the tensor which contains more than one element"
    end.

  (** ** _two_line_to_one_line, 467-510 *)
  Section TwoLines.
    Variables (up down left right : dir) (cut : nat).
    (** 488-493 *)
    Definition double_site (a b : tens) : res tens :=
      contract E J (edge_rename a [(nm left 0, nm left 1); (nm right 0, nm right 1)])
                   (edge_rename b [(nm left 0, nm left 2); (nm right 0, nm right 2)]) [(nm down 0, nm up 0)].
    (** 494-499, from the site [a] on; the others follow *)
    Fixpoint qr_pass (a : tens) (rest : list tens) : res (list tens) :=
      match rest with
      | [] => Ok [a]
      | b :: rest' =>
          bind (qr L E Iq a "r"%char [nm right 1; nm right 2] (nm right 0) (nm left 0)) (fun qr =>
          bind (contract E J b (snd qr) [(nm left 1, nm right 1); (nm left 2, nm right 2)]) (fun b' =>
          bind (qr_pass b' rest') (fun l => Ok (fst qr :: l))))
      end.
    (** 502-507 *)
    Definition svd_pair (a b : tens) : res (tens * tens * bool) :=
      bind (contract E J (edge_rename a [(nm up 0, nm up 1); (nm down 0, nm down 1)])
                         (edge_rename b [(nm up 0, nm up 2); (nm down 0, nm down 2)]) [(nm right 0, nm left 0)]) (fun t =>
      bind (svd gesvd vzero greater E vjunk Is t [nm left 0; nm up 1; nm down 1] (nm right 0) (nm left 0) (Some cut)) (fun o =>
      let '(u, s, v, w) := o in
      bind (multiple E u (map (fun sl => (fst sl, map of_real (snd sl))) s) (nm right 0) "u"%char false) (fun u' =>
      Ok (edge_rename u' [(nm up 1, nm up 0); (nm down 1, nm down 0)],
          edge_rename v [(nm up 2, nm up 0); (nm down 2, nm down 0)], w)))).
    (** 500-508 *)
    Fixpoint svd_pass (a : tens) (rest : list tens) : res (list tens * bool) :=
      match rest with
      | [] => Ok ([a], false)
      | b :: rest' =>
          bindw (svd_pass b rest') (fun l =>
          match l with
          | [] => UB
          | b' :: l' => bind (svd_pair a b') (fun o => let '(u, v, w) := o in Ok (u :: v :: l', w))
          end)
      end.
    (** length - 1 is a large number if there are no sites (494), and double_line[0] does not exist *)
    Definition two_line_to_one_line (line_1 line_2 : list tens) : res (list tens * bool) :=
      if negb (Nat.eqb (length line_2) (length line_1)) then Throw (LogicError "Different Length in Two Line to One Line")
      else
      bind (mapM (fun ab => double_site (fst ab) (snd ab)) (combine line_1 line_2)) (fun double_line =>
      match double_line with
      | [] => UB
      | a :: rest => bind (qr_pass a rest) (fun l => match l with [] => UB | a :: rest => svd_pass a rest end)
      end).
    (** the nodes up_to_down and so on, 68-170: one line after the other taken in *)
    Fixpoint stack (line : list tens) (lines : list (list tens)) : res (list tens * bool) :=
      match lines with
      | [] => Ok (line, false)
      | l :: ls => bindw (two_line_to_one_line line l) (fun x => stack x ls)
      end.
  End TwoLines.

  (** ** strips of three lines, 172-382, for the sequence of sites a - s - c across the strip.  [s1], [s3]: the suffixes of line a and
      line c *)
  Section Strip.
    Variables (left right up down : dir) (s1 s3 : nat).
    Definition step_1 (t a : tens) : res tens :=
      bind (contract E J t a [(nm right s1, nm left 0)]) (fun x => Ok (edge_rename x [(nm right 0, nm right s1)])).
    Definition step_3 (t s c : tens) : res tens :=
      bind (contract E J t s [(nm right 2, nm left 0); (nm down 0, nm up 0)]) (fun x =>
      bind (contract E J (edge_rename x [(nm right 0, nm right 2)]) c [(nm right s3, nm left 0); (nm down 0, nm up 0)]) (fun y =>
      Ok (edge_rename y [(nm right 0, nm right s3)]))).
    Definition strip (cols : list (tens * tens * tens)) : res tens :=
      foldM (fun t x => let '(a, s, c) := x in bind (step_1 t a) (fun t1 => step_3 t1 s c)) cols unit_tensor.
  End Strip.

  (** ** the system *)
  Variables (M N cut : nat) (lattice : list (list tens)).

  Definition site_at (i j : nat) : res tens := bind (get_or_ub (nth_error lattice i)) (fun row => get_or_ub (nth_error row j)).
  (** _collect_line, 512-538 *)
  Definition row (i : nat) : res (list tens) := mapM (fun j => site_at i j) (seq 0 N).
  Definition column (j : nat) : res (list tens) := mapM (fun i => site_at i j) (seq 0 M).
  (** up_to_down[i - 1], 68-92; down_to_up[i], 94-118; left_to_right[j - 1], 120-144; right_to_left[j], 146-170 *)
  Definition up_to_down (i : nat) : res (list tens * bool) :=
    bind (mapM row (seq 0 i)) (stack Up Down Lft Rgt cut (repeat unit_tensor N)).
  Definition down_to_up (i : nat) : res (list tens * bool) :=
    bind (mapM row (rev (seq i (M - i)))) (stack Down Up Lft Rgt cut (repeat unit_tensor N)).
  Definition left_to_right (j : nat) : res (list tens * bool) :=
    bind (mapM column (seq 0 j)) (stack Lft Rgt Up Down cut (repeat unit_tensor M)).
  Definition right_to_left (j : nat) : res (list tens * bool) :=
    bind (mapM column (rev (seq j (N - j)))) (stack Rgt Lft Up Down cut (repeat unit_tensor M)).

  Definition at3 (a s c : list tens) (k : nat) : res (tens * tens * tens) :=
    bind (get_or_ub (nth_error a k)) (fun x => bind (get_or_ub (nth_error s k)) (fun y => bind (get_or_ub (nth_error c k)) (fun z => Ok (x, y, z)))).
  Definition flip (x : tens * tens * tens) : tens * tens * tens := let '(a, s, c) := x in (c, s, a).
  (** the columns of the three lines around row i, the rows of those around column j *)
  Definition around_row (i : nat) : res (list (tens * tens * tens) * bool) :=
    bindw (up_to_down i) (fun a => bindw (quiet (row i)) (fun s => bindw (down_to_up (1 + i)) (fun c => quiet (mapM (at3 a s c) (seq 0 N))))).
  Definition around_column (j : nat) : res (list (tens * tens * tens) * bool) :=
    bindw (left_to_right j) (fun a => bindw (quiet (column j)) (fun s => bindw (right_to_left (1 + j)) (fun c => quiet (mapM (at3 a s c) (seq 0 M))))).
  Definition strip_r (cols : list (tens * tens * tens)) : res tens := strip Lft Rgt Up Down 1 3 cols.
  Definition strip_l (cols : list (tens * tens * tens)) : res tens := strip Rgt Lft Down Up 3 1 (rev (map flip cols)).
  Definition strip_d (rows : list (tens * tens * tens)) : res tens := strip Up Down Lft Rgt 1 3 rows.
  Definition strip_u (rows : list (tens * tens * tens)) : res tens := strip Down Up Rgt Lft 3 1 (rev (map flip rows)).
  (** left_to_right_3_1[i][j], 178-197, and right_to_left_3_1[i][j], 230-249, from the columns of row i; up_to_down_3_1[i][j],
      284-303, and down_to_up_3_1[i][j], 336-355, from the rows of column j *)
  Definition left_3_1 (cols : list (tens * tens * tens)) (j : nat) : res tens :=
    bind (strip_r (firstn j cols)) (fun t => bind (get_or_ub (nth_error cols j)) (fun x => step_1 Lft Rgt 1 t (fst (fst x)))).
  Definition right_3_1 (cols : list (tens * tens * tens)) (j : nat) : res tens :=
    bind (strip_l (skipn (1 + j) cols)) (fun t => bind (get_or_ub (nth_error cols j)) (fun x => step_1 Rgt Lft 3 t (snd x))).
  Definition up_3_1 (rows : list (tens * tens * tens)) (i : nat) : res tens :=
    bind (strip_d (firstn i rows)) (fun t => bind (get_or_ub (nth_error rows i)) (fun x => step_1 Up Down 1 t (fst (fst x)))).
  Definition down_3_1 (rows : list (tens * tens * tens)) (i : nat) : res tens :=
    bind (strip_u (skipn (1 + i) rows)) (fun t => bind (get_or_ub (nth_error rows i)) (fun x => step_1 Down Up 3 t (snd x))).

  (** a map.at for a position outside of the lattice *)
  Definition inside (i j : nat) : bool := Nat.ltb i M && Nat.ltb j N.

  (** operator()(replacement), 405-465.  The replacements are in the order of the map (by position); the branches y2 + 1 == y1 and
      x2 + 1 == x1 cannot be reached then and are left out. *)
  (** 407 *)
  Definition amplitude_0 : res (R * bool) :=
    if inside 0 0 then bindw (around_row 0) (fun cols => quiet (bind (strip_l cols) to_scalar)) else Throw OutOfRange.
  (** 410-419 *)
  Definition amplitude_1 (vertical : bool) (i j : nat) (x : tens) : res (R * bool) :=
    if negb (inside i j) then Throw OutOfRange
    else if vertical then
      bindw (around_column j) (fun rows => quiet (
      bind (up_3_1 rows i) (fun a =>
      bind (contract E J a (edge_rename x [(nm Down 0, nm Down 2)]) [(nm Down 2, nm Up 0); (nm Rgt 0, nm Lft 0)]) (fun b =>
      bind (down_3_1 rows i) (fun c =>
      bind (contract E J b c [(nm Down 1, nm Up 1); (nm Down 2, nm Up 2); (nm Down 3, nm Up 3); (nm Rgt 0, nm Lft 0)]) to_scalar)))))
    else
      bindw (around_row i) (fun cols => quiet (
      bind (left_3_1 cols j) (fun a =>
      bind (contract E J a (edge_rename x [(nm Rgt 0, nm Rgt 2)]) [(nm Rgt 2, nm Lft 0); (nm Down 0, nm Up 0)]) (fun b =>
      bind (right_3_1 cols j) (fun c =>
      bind (contract E J b c [(nm Rgt 1, nm Lft 1); (nm Rgt 2, nm Lft 2); (nm Rgt 3, nm Lft 3); (nm Down 0, nm Up 0)]) to_scalar))))).
  (** 428-435: two sites of row i, columns j and j + 1 *)
  Definition amplitude_2h (i j : nat) (x y : tens) : res (R * bool) :=
    if negb (inside i j && inside i (1 + j)) then Throw OutOfRange
    else
      bindw (around_row i) (fun cols => quiet (
      bind (left_3_1 cols j) (fun a =>
      bind (contract E J a (edge_rename x [(nm Rgt 0, nm Rgt 2)]) [(nm Rgt 2, nm Lft 0); (nm Down 0, nm Up 0)]) (fun b =>
      bind (get_or_ub (nth_error cols j)) (fun p =>
      bind (contract E J b (edge_rename (snd p) [(nm Rgt 0, nm Rgt 3)]) [(nm Rgt 3, nm Lft 0); (nm Down 0, nm Up 0)]) (fun c =>
      bind (get_or_ub (nth_error cols (1 + j))) (fun q =>
      bind (contract E J c (edge_rename (fst (fst q)) [(nm Rgt 0, nm Rgt 1)]) [(nm Rgt 1, nm Lft 0)]) (fun d =>
      bind (contract E J d (edge_rename y [(nm Rgt 0, nm Rgt 2)]) [(nm Rgt 2, nm Lft 0); (nm Down 0, nm Up 0)]) (fun e =>
      bind (right_3_1 cols (1 + j)) (fun f =>
      bind (contract E J e f [(nm Rgt 1, nm Lft 1); (nm Rgt 2, nm Lft 2); (nm Rgt 3, nm Lft 3); (nm Down 0, nm Up 0)]) to_scalar)))))))))).
  (** 446-453: two sites of column j, rows i and i + 1 *)
  Definition amplitude_2v (i j : nat) (x y : tens) : res (R * bool) :=
    if negb (inside i j && inside (1 + i) j) then Throw OutOfRange
    else
      bindw (around_column j) (fun rows => quiet (
      bind (up_3_1 rows i) (fun a =>
      bind (contract E J a (edge_rename x [(nm Down 0, nm Down 2)]) [(nm Down 2, nm Up 0); (nm Rgt 0, nm Lft 0)]) (fun b =>
      bind (get_or_ub (nth_error rows i)) (fun p =>
      bind (contract E J b (edge_rename (snd p) [(nm Down 0, nm Down 3)]) [(nm Down 3, nm Up 0); (nm Rgt 0, nm Lft 0)]) (fun c =>
      bind (get_or_ub (nth_error rows (1 + i))) (fun q =>
      bind (contract E J c (edge_rename (fst (fst q)) [(nm Down 0, nm Down 1)]) [(nm Down 1, nm Up 0)]) (fun d =>
      bind (contract E J d (edge_rename y [(nm Down 0, nm Down 2)]) [(nm Down 2, nm Up 0); (nm Rgt 0, nm Lft 0)]) (fun e =>
      bind (down_3_1 rows (1 + i)) (fun f =>
      bind (contract E J e f [(nm Down 1, nm Up 1); (nm Down 2, nm Up 2); (nm Down 3, nm Up 3); (nm Rgt 0, nm Lft 0)]) to_scalar)))))))))).
  Definition amplitude (replacement : list (nat * nat * tens)) (hint : ascii) : res (R * bool) :=
    match replacement with
    | [] => amplitude_0
    | [(i, j, x)] => amplitude_1 (Ascii.eqb hint "v"%char) i j x
    | [(x1, y1, x); (x2, y2, y)] =>
        if Nat.eqb x1 x2 && Nat.eqb (1 + y1) y2 then amplitude_2h x1 y1 x y
        else if Nat.eqb y1 y2 && Nat.eqb (1 + x1) x2 then amplitude_2v x1 y1 x y
        else Throw (NotImplementedError "Unsupported replacement style")
    | _ => Throw (NotImplementedError "Unsupported replacement style")
    end.

  (** operator()(holes), 387-403; the environment of one site is a tensor with the edges L0, U0, D0, R0 *)
  Definition environment_1 (vertical : bool) (i j : nat) : res (tens * bool) :=
    if negb (inside i j) then Throw OutOfRange
    else if vertical then
      bindw (around_column j) (fun rows => quiet (
      bind (up_3_1 rows i) (fun a => bind (down_3_1 rows i) (fun c =>
      bind (contract E J a c [(nm Down 1, nm Up 1); (nm Down 3, nm Up 3)]) (fun t =>
      Ok (edge_rename t [(nm Down 2, nm Up 4); (nm Rgt 0, nm Lft 4); (nm Lft 0, nm Rgt 4); (nm Up 2, nm Down 4)]))))))
    else
      bindw (around_row i) (fun cols => quiet (
      bind (left_3_1 cols j) (fun a => bind (right_3_1 cols j) (fun c =>
      bind (contract E J a c [(nm Rgt 1, nm Lft 1); (nm Rgt 3, nm Lft 3)]) (fun t =>
      Ok (edge_rename t [(nm Rgt 2, nm Lft 4); (nm Down 0, nm Up 4); (nm Up 0, nm Down 4); (nm Lft 2, nm Rgt 4)])))))).
  Definition environment (holes : list (nat * nat)) (hint : ascii) : res (tens * bool) :=
    match holes with
    | [] => if inside 0 0 then bindw (around_row 0) (fun cols => quiet (strip_l cols)) else Throw OutOfRange
    | [(i, j)] => environment_1 (Ascii.eqb hint "v"%char) i j
    | _ => Throw (NotImplementedError "Unsupported holes style")
    end.
End Auxiliaries.
