(** multiple, conjugate, identity: include/TAT/tensor_miscellaneous.hpp. *)
From Coq Require Import String Ascii List Bool Arith ZArith.
From Verif Require Import Base.Outcome Base.SMap Model.Symmetry Model.Edge Model.Core Model.EdgeOperator Model.Elementwise.
Import ListNotations.

Section Misc.
  Context {S R : Type} {SS : Sym S} {RR : Scalar R}.

  (** multiple_kernel, tensor_miscellaneous.hpp:30-46 *)
  Definition multiple_kernel (m k n : nat) (dst src s : list R) : res (list R) :=
    foldM (fun dst a =>
      foldM (fun dst b =>
        bind (get_or_ub (nth_error s b)) (fun v =>
        foldM (fun dst c =>
          bind (get_or_ub (nth_error src ((a * k + b) * n + c))) (fun x =>
          get_or_ub (update dst ((a * k + b) * n + c) (rmul x v)))) (seq 0 n) dst)) (seq 0 k) dst) (seq 0 m) dst.

  (** product of edges[i].map.at(symmetries[i]), lines 82-92 *)
  Definition product_at (es : list (edge S)) (key : list S) : res nat :=
    foldM (fun acc ek => bind (at_or_throw (mfind (snd ek) (emap (fst ek)))) (fun d => Ok (acc * d))) (combine es key) 1.

  (** Tensor::multiple, lines 48-122.  The spectrum is a map from charges to vectors (Singular::value); its real entries are
      taken as scalars.  The variant TAT_USE_SINGULAR_MATRIX is not modelled. *)
  Definition multiple (E : @env R) (t : tensor S R) (spectrum : list (S * list R)) (n : name) (direction : ascii) (division : bool)
      : res (tensor S R) :=
    match (if Ascii.eqb direction "u" || Ascii.eqb direction "U" then Some false
           else if Ascii.eqb direction "v" || Ascii.eqb direction "V" then Some true else None)%char with
    | None => tat_error "Direction invalid in multiple"
    | Some different_direction =>
    match mfind n (construct_name_to_index (t_names t)) with
    | None => Ok t
    | Some index =>
    bind (same_shape (env_junk E) t) (fun r =>
    bind (foldM (fun blocks kb =>
            let '(key, src) := kb in
            bind (at_or_throw (mfind key blocks)) (fun dst =>
            bind (get_or_ub (nth_error key index)) (fun s0 =>
            let s := if different_direction then sneg s0 else s0 in
            bind (at_or_throw (mfind s spectrum)) (fun vector =>
            bind (product_at (firstn index (t_edges t)) (firstn index key)) (fun m =>
            bind (get_or_ub (nth_error (t_edges t) index)) (fun e =>
            bind (at_or_throw (mfind s0 (emap e))) (fun k =>
            bind (product_at (skipn (1 + index) (t_edges t)) (skipn (1 + index) key)) (fun nn =>
            if negb (Nat.eqb (length vector) k) then tat_error "Vector Size incompatible in Multiple with a tensor"
            else
            bind (multiple_kernel m k nn dst src (if division then map (rdiv rone) vector else vector)) (fun dst' =>
            Ok (mset key dst' blocks)))))))))) (t_blocks t) (t_blocks r)) (fun blocks =>
    Ok (mkTensor (t_names r) (mkCore (t_edges r) blocks))))
    end end.

  (** Tensor::conjugate, lines 125-183.  [real]: is_real_v<ScalarType>.  Bosonic edges have no arrow: the field is copied. *)
  Definition conjugate_edge (e : edge S) : edge S :=
    mkEdge (if is_fermi then negb (earrow e) else earrow e) (fold_left (fun m sd => mset (sneg (fst sd)) (snd sd) m) (emap e) []).
  Definition conjugate (E : @env R) (real : bool) (t : tensor S R) : res (tensor S R) :=
    if is_nosym && real then Ok t
    else
    bind (make_tensor (env_junk E) (t_names t) (map conjugate_edge (t_edges t)) false) (fun r =>
    bind (foldM (fun blocks kb =>
            let '(key, src) := kb in
            let key' := map sneg key in
            bind (at_or_throw (mfind key' blocks)) (fun dst =>
            let parity := is_fermi && get_split_merge_parity key (repeat 0 (length (t_names t))) [true] in
            let f x := let y := if real then x else rconj x in if parity : bool then ropp y else y in
            if Nat.ltb (length dst) (length src) then UB
            else Ok (mset key' (map f src ++ skipn (length src) dst) blocks))) (t_blocks t) (t_blocks r)) (fun blocks =>
    Ok (mkTensor (t_names r) (mkCore (t_edges r) blocks)))).

  (** one step of the odometer of set_to_identity, lines 190-206; all lists are given from the last position to the first.
      None: the first position overflowed (return). *)
  Fixpoint identity_step (dims leads idx : list nat) (p : nat) : option (list nat * nat) :=
    match dims, leads, idx with
    | d :: ds, l :: ls, i :: is =>
        if Nat.eqb (1 + i) d
        then match identity_step ds ls is (p + l - d * l) with
             | Some (is', p') => Some (0 :: is', p')
             | None => None
             end
        else Some ((1 + i) :: is, p + l)
    | _, _, _ => None
    end.
  Fixpoint identity_loop (fuel : nat) (dims leads idx : list nat) (p : nat) (b : list R) : res (list R) :=
    match fuel with
    | O => OutOfFuel
    | Datatypes.S fuel' =>
        bind (get_or_ub (update b p rone)) (fun b' =>
        match identity_step dims leads idx p with
        | Some (idx', p') => identity_loop fuel' dims leads idx' p' b'
        | None => Ok b'
        end)
    end.
  (** set_to_identity, lines 186-210; for rank 0 it writes the first element and then indexes position -1 *)
  Definition set_to_identity (b : list R) (dims leads : list nat) : res (list R) :=
    match dims with
    | [] => UB
    | _ => identity_loop (1 + length b) (rev dims) (rev leads) (repeat 0 (length dims)) 0 b
    end.

  (** lines 224-237: the partner of a name; None: no pair mentions it (null pointer) *)
  Fixpoint partner (pairs : list (name * name)) (n : name) : option name :=
    match pairs with
    | [] => None
    | (a, b) :: ps => if Nat.eqb a n then Some b else if Nat.eqb b n then Some a else partner ps n
    end.
  (** lines 222-243; [valid] is valid_index *)
  Fixpoint ordered_pairs_from (pairs : list (name * name)) (index : list (name * nat)) (i : nat) (names : list name) (invalid : list nat)
      : res (list (nat * nat)) :=
    match names with
    | [] => Ok []
    | n :: ns =>
        if existsb (Nat.eqb i) invalid then ordered_pairs_from pairs index (1 + i) ns invalid
        else bind (get_or_ub (partner pairs n)) (fun m =>
             bind (at_or_throw (mfind m index)) (fun j =>
             bind (ordered_pairs_from pairs index (1 + i) ns (j :: invalid)) (fun l => Ok ((i, j) :: l))))
    end.

  (** Tensor::identity, lines 212-274; the strides (lines 248-256) are computed as in edge_operator: EdgeOperator.leadings *)
  Definition identity (E : @env R) (t : tensor S R) (pairs : list (name * name)) : res (tensor S R) :=
    let names := t_names t in
    let half_rank := Nat.div2 (length names) in
    bind (ordered_pairs_from pairs (construct_name_to_index names) 0 names []) (fun ordered =>
    bind (same_shape (env_junk E) t) (fun r0 =>
    let r := zero_tensor r0 in
    bind (mapM (fun kb =>
            bind (mapM (fun ek => at_or_throw (mfind (snd ek) (emap (fst ek)))) (combine (t_edges t) (fst kb))) (fun dims =>
            let leads := leadings dims in
            bind (mapM (fun i =>
                    bind (get_or_ub (nth_error ordered i)) (fun ij =>
                    bind (get_or_ub (nth_error dims (fst ij))) (fun d =>
                    bind (get_or_ub (nth_error leads (fst ij))) (fun l1 =>
                    bind (get_or_ub (nth_error leads (snd ij))) (fun l2 => Ok (d, l1 + l2)))))) (seq 0 half_rank)) (fun pl =>
            bind (set_to_identity (snd kb) (map fst pl) (map snd pl)) (fun b => Ok (fst kb, b))))) (t_blocks r)) (fun bs =>
    Ok (mkTensor (t_names r) (mkCore (t_edges r) bs))))).
End Misc.
