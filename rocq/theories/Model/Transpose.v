(** Data movement of a single block: include/TAT/transpose.hpp. *)
From Coq Require Import List Bool Arith ZArith.
From Verif Require Import Base.Outcome Base.SMap Model.Symmetry Model.Edge Model.Core.
Import ListNotations.

(** One axis of the loop nest: dimension and the two strides. *)
Record axis : Type := mkAxis { ax_dim : nat; ax_ls : nat; ax_ld : nat }.

Section Transpose.
  Context {R : Type} {RR : Scalar R}.

  (** *current_destination = parity ? -*current_source : *current_source,  transpose.hpp:163-167, 172-176.
      Access outside the block is undefined behaviour. *)
  Definition copy_cell (parity : bool) (src : list R) (s : nat) (dst : list R) (d : nat) : res (list R) :=
    bind (get_or_ub (nth_error src s)) (fun v =>
    get_or_ub (update dst d (if parity then ropp v else v))).

  (** index_list, dimension and leadings as one list with the last axis first *)
  Definition kstate : Type := list (nat * axis).

  (** Lines 178-180 / 193-195 (advance the active position by one) followed by the test of the inner while and
      its body, transpose.hpp:183-196.  The head of the list is the active position.
      [None]: active_position == 0 was exhausted (return).
      Pointers are offsets; subtraction never truncates (shown in Proof/TransposeFacts.v). *)
  Fixpoint carry (st : kstate) (s d : nat) : option (kstate * nat * nat) :=
    match st with
    | [] => None
    | (i, a) :: rest =>
        let i' := i + 1 in
        let s' := s + ax_ls a in
        let d' := d + ax_ld a in
        if Nat.eqb i' (ax_dim a) then
          match carry rest (s' - ax_dim a * ax_ls a) (d' - ax_dim a * ax_ld a) with
          | Some (st', s'', d'') => Some ((0, a) :: st', s'', d'')
          | None => None
          end
        else Some ((i', a) :: rest, s', d')
    end.

  (** tensor_transpose_kernel<..., loop_last = false>, transpose.hpp:149-198; [sb], [db]: offsets of the data pointers *)
  Fixpoint kernel_plain (fuel : nat) (parity : bool) (src : list R) (sb db : nat)
      (st : kstate) (s d : nat) (dst : list R) : res (list R) :=
    match fuel with
    | O => OutOfFuel
    | S fuel' =>
        bind (copy_cell parity src (sb + s) dst (db + d)) (fun dst' =>
        match st with
        | [] => UB (* rank 0: index_list[rank - 1] does not exist *)
        | _ :: _ =>
            match carry st s d with
            | None => Ok dst'
            | Some (st', s', d') => kernel_plain fuel' parity src sb db st' s' d' dst'
            end
        end)
    end.

  (** for (i = 0; i < line_size; i++) ..., transpose.hpp:161-168 *)
  Fixpoint copy_line (n : nat) (parity : bool) (src : list R) (s d : nat) (dst : list R) : res (list R) :=
    match n with
    | O => Ok dst
    | S n' => bind (copy_cell parity src s dst d) (fun dst' => copy_line n' parity src (s + 1) (d + 1) dst')
    end.

  (** tensor_transpose_kernel<..., loop_last = true>: [st] starts at axis line_rank (the axes behind it are
      never touched), transpose.hpp:156-170 *)
  Fixpoint kernel_line (fuel : nat) (parity : bool) (line_size : nat) (src : list R) (sb db : nat)
      (st : kstate) (s d : nat) (dst : list R) : res (list R) :=
    match fuel with
    | O => OutOfFuel
    | S fuel' =>
        bind (copy_line line_size parity src (sb + s) (db + d) dst) (fun dst' =>
        match st with
        | [] => UB
        | (_, a) :: rest =>
            (* index_list[line_rank] = dimension[line_rank], so the while resets it and carries *)
            match carry rest (s + line_size - ax_dim a * ax_ls a) (d + line_size - ax_dim a * ax_ld a) with
            | None => Ok dst'
            | Some (st', s', d') => kernel_line fuel' parity line_size src sb db ((0, a) :: st') s' d' dst'
            end
        end)
    end.

  Definition start_state (axes : list axis) : kstate := map (fun a => (0, a)) axes.
  Definition axes_size (axes : list axis) : nat := fold_right (fun a n => ax_dim a * n) 1 axes.

  (** the search for the longest common contiguous run, transpose.hpp:235-244 and 356-365.
      [axes]: the axes from line_rank to the front, last first.  When line_rank is 0 the condition reads
      leadings[line_rank - 1], i.e. index -1, out of bounds (see line_run_reads below); [oob] is the outcome of that
      comparison.  Result: remaining axes starting at line_rank, and expect_leading. *)
  Fixpoint line_run (oob : bool) (axes : list axis) (expect_leading : nat) : list axis * nat :=
    match axes with
    | [] => ([], expect_leading)
    | a :: rest =>
        let expect := expect_leading * ax_dim a in
        match rest with
        | [] => if oob then (axes, expect) (* line_rank == 0: break *) else (axes, expect)
        | b :: _ =>
            if Nat.eqb (ax_ls b) expect && Nat.eqb (ax_ld b) expect
            then line_run oob rest expect
            else (axes, expect)
        end
    end.

  (** The table positions (line_rank - 1) read by the loop condition, as integers: -1 when line_rank is 0. *)
  Fixpoint line_run_reads (axes : list axis) (expect_leading : nat) : list Z :=
    match axes with
    | [] => []
    | a :: rest =>
        let expect := expect_leading * ax_dim a in
        (Z.of_nat (length rest) - 1)%Z ::
        match rest with
        | [] => []
        | b :: _ =>
            if Nat.eqb (ax_ls b) expect && Nat.eqb (ax_ld b) expect
            then line_run_reads rest expect else []
        end
    end.

  (** common tail of simple_transpose (234-267) and inturn_transpose (355-383); [axes] last axis first *)
  Definition run_kernel (oob parity : bool) (axes : list axis) (src : list R) (sb db : nat) (dst : list R) : res (list R) :=
    match axes with
    | [] => UB (* reads leadings[rank - 1] with rank 0 *)
    | a :: _ =>
        if Nat.eqb (ax_ls a) 1 && Nat.eqb (ax_ld a) 1 then
          let '(axes', line_size) := line_run oob axes 1 in
          kernel_line (1 + axes_size axes) parity line_size src sb db (start_state axes') 0 0 dst
        else kernel_plain (1 + axes_size axes) parity src sb db (start_state axes) 0 0 dst
    end.

  (** simple_transpose, transpose.hpp:216-268: loop order is the destination order *)
  Definition simple_axes (plan_d2s : list nat) (dims_dst ls ld : list nat) : list axis :=
    rev (map (fun x => mkAxis (fst (fst x)) (nth (snd (fst x)) ls 0) (snd x))
             (combine (combine dims_dst plan_d2s) ld)).

  (** inturn_transpose, transpose.hpp:281-353.  State of the selection loop. *)
  Record inturn_state : Type := mkInturn {
    it_mask_s : list bool; it_mask_d : list bool;
    it_axes : list axis;            (* real_* arrays filled so far, position current_index first *)
    it_src_ex : bool; it_dst_ex : bool;
    it_cs : nat; it_cd : nat }.     (* current_index_source, current_index_destination *)

  (** while (mask[c]) { if (c == 0) { exhausted = true; break; } c--; }   lines 302-308, 326-332 *)
  Fixpoint skip_masked (mask : list bool) (c : nat) (exhausted : bool) : nat * bool :=
    if nth c mask false then
      match c with
      | O => (O, true)
      | S c' => skip_masked mask c' exhausted
      end
    else (c, exhausted).
  (** do { if (c == 0) { exhausted = true; break; } c--; } while (mask[c]);   lines 310-316, 334-340 *)
  Fixpoint step_masked (mask : list bool) (c : nat) (exhausted : bool) : nat * bool :=
    match c with
    | O => (O, true)
    | S c' => if nth c' mask false then step_masked mask c' exhausted else (c', exhausted)
    end.

  Definition set_true (mask : list bool) (i : nat) : list bool :=
    firstn i mask ++ (match skipn i mask with [] => [] | _ :: r => true :: r end).

  Section Inturn.
    Variables plan_s2d plan_d2s dims_src dims_dst ls ld : list nat.

    (** use_source lambda, lines 294-317 *)
    Definition use_source (st : inturn_state) : inturn_state :=
      let cs := it_cs st in
      let r := nth cs plan_s2d 0 in
      let ax := mkAxis (nth cs dims_src 0) (nth cs ls 0) (nth r ld 0) in
      let mask_d := set_true (it_mask_d st) r in
      let '(cd, dex) := skip_masked mask_d (it_cd st) (it_dst_ex st) in
      let '(cs', sex) := step_masked (it_mask_s st) cs (it_src_ex st) in
      mkInturn (it_mask_s st) mask_d (it_axes st ++ [ax]) sex dex cs' cd.

    (** use_destination lambda, lines 318-341 *)
    Definition use_destination (st : inturn_state) : inturn_state :=
      let cd := it_cd st in
      let r := nth cd plan_d2s 0 in
      let ax := mkAxis (nth cd dims_dst 0) (nth r ls 0) (nth cd ld 0) in
      let mask_s := set_true (it_mask_s st) r in
      let '(cs, sex) := skip_masked mask_s (it_cs st) (it_src_ex st) in
      let '(cd', dex) := step_masked (it_mask_d st) cd (it_dst_ex st) in
      mkInturn mask_s (it_mask_d st) (it_axes st ++ [ax]) sex dex cs cd'.

    (** lines 343-353: current_index runs from rank - 1 down to 0, so axes are produced last first *)
    Fixpoint inturn_loop (n : nat) (st : inturn_state) : inturn_state :=
      match n with
      | O => st
      | S n' =>
          inturn_loop n'
            (if it_dst_ex st then use_source st
             else if it_src_ex st then use_destination st
             else if Nat.ltb (nth (it_cs st) ls 0) (nth (it_cd st) ld 0) then use_source st
             else use_destination st)
      end.

    Definition inturn_axes (rank : nat) : list axis :=
      it_axes (inturn_loop rank
        (mkInturn (repeat false rank) (repeat false rank) [] false false (rank - 1) (rank - 1))).
  End Inturn.

  (** do_transpose, transpose.hpp:386-464.  [big]: total_size * sizeof(ScalarType) >= l1_cache. *)
  Definition do_transpose (oob big : bool) (src : list R) (sb : nat) (dst : list R) (db : nat)
      (plan_s2d plan_d2s dims_src dims_dst ls ld : list nat) (rank total_size : nat) (parity : bool) : res (list R) :=
    if Nat.eqb total_size 0 then Ok dst
    else if Nat.eqb total_size 1 then copy_cell parity src sb dst db
    else
      let axes := if big then inturn_axes plan_s2d plan_d2s dims_src dims_dst ls ld rank
                  else simple_axes plan_d2s dims_dst ls ld in
      run_kernel oob parity axes src sb db dst.

  (** matrix_transpose, transpose.hpp:466-472 *)
  Definition matrix_transpose (m n : nat) (src dst : list R) : res (list R) :=
    kernel_plain (1 + m * n) false src 0 0 (start_state [mkAxis n 1 m; mkAxis m n 1]) 0 0 dst.
End Transpose.
