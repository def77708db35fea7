(** Sharing of tensor data: a tensor is a list of names and a counted pointer to its core (edges and blocks).
    Copying, renaming and a transpose that changes nothing share the core; whatever may change the data first
    copies a core that is shared (include/TAT/tensor.hpp, get_item.hpp, scalar.hpp, edge_miscellaneous.hpp).

    A program is a sequence of statements over tensor variables.  Simplified: one scalar type, one thread,
    memory never runs out, the addresses of released cores are not reused, name_to_index is a function of the
    names and left out, the warning given when a shared core is copied (TAT_warning_or_error_when_copy_shared) is
    left out. *)
From Coq Require Import String List Bool Arith.
From Verif Require Import Base.Outcome Base.SMap Model.Symmetry Model.Edge Model.Core Model.EdgeOperator
  Model.Elementwise.
Import ListNotations.

Section Cow.
  Context {S R : Type} {SS : Sym S} {RR : Scalar R}.
  Variable E : @env R.

  (** Tensor, tensor.hpp:132-148: the names and the pointer to the core *)
  Record handle : Type := mkHandle { h_names : list name; h_core : nat }.

  (** the place a reference to an element points to: a core, the key of a block, an offset *)
  Definition location : Type := (nat * list S * nat)%type.

  (** st_heap: use_count and contents of every core that is alive (shared_ptr, tensor.hpp:142);
      st_vars: the variables that hold a tensor; a variable that is absent is default-constructed or moved from,
      its core is null; st_refs: references kept by the program; st_next: the next address *)
  Record state : Type := mkState {
    st_heap : list (nat * (nat * core S R));
    st_vars : list (nat * handle);
    st_refs : list (nat * location);
    st_next : nat }.

  Definition empty_state : state := mkState [] [] [] 0.

  Definition with_heap (st : state) (h : list (nat * (nat * core S R))) : state :=
    mkState h (st_vars st) (st_refs st) (st_next st).
  Definition with_vars (st : state) (v : list (nat * handle)) : state :=
    mkState (st_heap st) v (st_refs st) (st_next st).

  (** what the program reads through a variable: names, edges and blocks *)
  Definition read (st : state) (x : nat) : option (tensor S R) :=
    match mfind x (st_vars st) with
    | None => None
    | Some h =>
        match mfind (h_core h) (st_heap st) with
        | None => None
        | Some (_, c) => Some (mkTensor (h_names h) c)
        end
    end.

  (** ** std::shared_ptr *)
  (** std::make_shared<Core>(...) *)
  Definition alloc (st : state) (c : core S R) : nat * state :=
    (st_next st,
     mkState (mset (st_next st) (1, c) (st_heap st)) (st_vars st) (st_refs st) (Datatypes.S (st_next st))).
  (** copying the pointer *)
  Definition acquire (st : state) (a : nat) : state :=
    match mfind a (st_heap st) with
    | None => st
    | Some (n, c) => with_heap st (mset a (Datatypes.S n, c) (st_heap st))
    end.
  (** destroying or overwriting the pointer; the last one frees the core *)
  Definition release (st : state) (a : nat) : state :=
    match mfind a (st_heap st) with
    | None => st
    | Some (n, c) =>
        if Nat.eqb n 1 then with_heap st (merase a (st_heap st))
        else with_heap st (mset a (n - 1, c) (st_heap st))
    end.

  (** ** Variables *)
  (** x = t for a tensor t that the statement owns (its pointer is already counted): the old core of x is released
      last, shared_ptr::operator=  *)
  Definition store (st : state) (x : nat) (h : handle) : state :=
    let st1 := with_vars st (mset x h (st_vars st)) in
    match mfind x (st_vars st) with
    | None => st1
    | Some old => release st1 (h_core old)
    end.
  (** the destructor, or x = Tensor() *)
  Definition drop (st : state) (x : nat) : state :=
    match mfind x (st_vars st) with
    | None => st
    | Some old => release (with_vars st (merase x (st_vars st))) (h_core old)
    end.
  (** x = t for a fresh tensor *)
  Definition store_fresh (st : state) (x : nat) (t : tensor S R) : state :=
    let (a, st1) := alloc st (t_core t) in store st1 x (mkHandle (t_names t) a).
  (** x = a tensor with the given names sharing the core at a (result.core = core) *)
  Definition store_shared (st : state) (x : nat) (names : list name) (a : nat) : state :=
    store (acquire st a) x (mkHandle names a).

  (** if (core.use_count() != 1) core = std::make_shared<Core>( *core ), tensor.hpp:285-288, get_item.hpp:110-114 and
      139-143, scalar.hpp:145-148 and 173-176 *)
  Definition unshare (st : state) (x : nat) : res (state * handle) :=
    bind (get_or_ub (mfind x (st_vars st))) (fun h =>
    bind (get_or_ub (mfind (h_core h) (st_heap st))) (fun nc =>
    if Nat.eqb (fst nc) 1 then Ok (st, h)
    else
      let (a, st1) := alloc st (snd nc) in
      let h' := mkHandle (h_names h) a in
      Ok (store st1 x h', h'))).

  (** the core at an address, and writing it in place *)
  Definition fetch (st : state) (a : nat) : res (core S R) :=
    get_or_ub (option_map snd (mfind a (st_heap st))).
  Definition overwrite (st : state) (a : nat) (c : core S R) : state :=
    match mfind a (st_heap st) with
    | None => st
    | Some (n, _) => with_heap st (mset a (n, c) (st_heap st))
    end.

  (** ** Places of elements *)
  (** the reference returned by at and const_at, get_item.hpp:125-155: key of the block and offset *)
  Definition locate (names : list name) (c : core S R) (pos : position) : res (list S * nat) :=
    bind (get_block_and_offset pos names c) (fun so =>
    bind (find_block c (fst so)) (fun b =>
    bind (get_or_ub (nth_error b (snd so))) (fun _ =>
    Ok (if is_nosym then match c_blocks c with kb :: _ => fst kb | [] => fst so end else fst so, snd so)))).
  (** assignment through such a reference *)
  Definition poke (c : core S R) (key : list S) (off : nat) (v : R) : res (core S R) :=
    bind (get_or_ub (mfind key (c_blocks c))) (fun b =>
    bind (get_or_ub (update b off v)) (fun b' =>
    Ok (mkCore (c_edges c) (mset key b' (c_blocks c))))).
  Definition peek (c : core S R) (key : list S) (off : nat) : res R :=
    bind (get_or_ub (mfind key (c_blocks c))) (fun b => get_or_ub (nth_error b off)).

  (** get_block_for_get_item, get_item.hpp:29-41, and the choice of the block in Tensor::block, get_item.hpp:116-122 *)
  Definition block_key (names : list name) (c : core S R) (pos : list (name * S)) : res (list S) :=
    if is_nosym then get_or_ub (option_map fst (hd_error (c_blocks c)))
    else
      bind (mapM (fun n => match mfind n pos with
                           | None => tat_error "Name not found in position map when finding block"
                           | Some s => Ok s
                           end) names) (fun key =>
      bind (at_or_throw (mfind key (c_blocks c))) (fun _ => Ok key)).

  (** the loop of the in-place operators, scalar.hpp:156-163: stops where blocks.at throws, with the blocks before it
      already changed *)
  Fixpoint inplace_blocks (op : R -> R -> R) (b2 bs : list (list S * list R))
      : res (list (list S * list R) * option exn) :=
    match bs with
    | [] => Ok ([], None)
    | (key, b) :: bs' =>
        match mfind key b2 with
        | None => Ok ((key, b) :: bs', Some OutOfRange)
        | Some d =>
            bind (loop_ab op b d (length b)) (fun r =>
            bind (inplace_blocks op b2 bs') (fun re => Ok ((key, r) :: fst re, snd re)))
        end
    end.

  (** ** Statements; x is the variable assigned or changed *)
  Inductive stmt : Type :=
  | SNew (x : nat) (names : list name) (edges : list (edge S)) (auto_reverse : bool) (* x = Tensor(names, edges, auto_reverse) *)
  | SCopy (x y : nat)                                   (* x = y, and x = y.to<same scalar>() *)
  | SMove (x y : nat)                                   (* x = std::move(y) *)
  | SDeep (x y : nat)                                   (* x = y.copy() *)
  | SRename (x y : nat) (dictionary : list (name * name)) (* x = y.edge_rename(dictionary) *)
  | SEdge (x y : nat) (a : @eo_args S)                  (* x = y.edge_operator(...), of which transpose is a case *)
  | SCompute (x : nat) (ys : list nat) (f : list (tensor S R) -> res (tensor S R)) (* x = f(ys), any other operation that
                                                           returns a new tensor *)
  | SDrop (x : nat)                                     (* the end of the life of x *)
  | STransform (x : nat) (f : R -> R)                   (* x.transform(f); x.zero() *)
  | SSet (x : nat) (g : nat -> R)                       (* x.set(g) where g i is what the i-th call returns; x.test() *)
  | SAt (x : nat) (pos : position (S := S)) (v : R)     (* x.at(pos) = v *)
  | SBlock (x : nat) (pos : list (name * S)) (g : list R -> list R) (* auto& b = x.block(pos); b = g(b) *)
  | SNumber (x : nat) (op : R -> R -> R) (c : R)        (* x op= c *)
  | SNumberAt (x : nat) (op : R -> R -> R) (y : nat) (pos : position (S := S)) (* x op= y.const_at(pos), a reference *)
  | STensor (x : nat) (op : R -> R -> R) (y : nat)      (* x op= y *)
  | SRef (r : nat) (x : nat) (pos : position (S := S))  (* auto& r = x.at(pos) *)
  | SWrite (r : nat) (v : R).                           (* r = v *)

  (** a statement ends normally, or with an exception and the state it leaves; undefined behaviour ends everything *)
  Definition settle {A : Type} (st : state) (m : res A) (k : A -> res (state * option exn)) : res (state * option exn) :=
    match m with
    | Ok a => k a
    | Throw e => Ok (st, Some e)
    | UB => UB
    | OutOfFuel => OutOfFuel
    end.

  (** an operation that changes the core of x in place: make it unshared, then compute the new contents *)
  Definition mutate (st : state) (x : nat) (f : list name -> core S R -> res (core S R)) : res (state * option exn) :=
    bind (unshare st x) (fun sh =>
    let (st1, h) := sh in
    bind (fetch st1 (h_core h)) (fun c =>
    settle st1 (f (h_names h) c) (fun c' => Ok (overwrite st1 (h_core h) c', None)))).

  Definition read_or_ub (st : state) (y : nat) : res (tensor S R) := get_or_ub (read st y).

  (** the test of edge_operator.hpp:128-129 *)
  Definition edge_unchanged (names : list name) (a : @eo_args S) : bool :=
    is_same_vector (map (rename_one (a_rename a)) names) (a_new_names a)
    && is_nil (a_split a) && is_nil (a_reversed a) && is_nil (a_merge a) && is_nil (a_cut a).

  Definition step (st : state) (s : stmt) : res (state * option exn) :=
    match s with
    (* tensor.hpp:161-167 *)
    | SNew x names edges auto_reverse =>
        settle st (make_tensor (env_junk E) names edges auto_reverse) (fun t => Ok (store_fresh st x t, None))
    (* tensor.hpp:188-192 (defaulted), and 382-389 *)
    | SCopy x y =>
        match mfind y (st_vars st) with
        | None => Ok (drop st x, None)
        | Some h => Ok (store_shared st x (h_names h) (h_core h), None)
        end
    (* moving a tensor to itself leaves it in an unspecified state *)
    | SMove x y =>
        if Nat.eqb x y then UB
        else
          match mfind y (st_vars st) with
          | None => Ok (drop st x, None)
          | Some h => Ok (store (with_vars st (merase y (st_vars st))) x h, None)
          end
    (* tensor.hpp:174-180 *)
    | SDeep x y => bind (read_or_ub st y) (fun t => Ok (store_fresh st x t, None))
    (* edge_miscellaneous.hpp:28-48 *)
    | SRename x y dictionary =>
        bind (get_or_ub (mfind y (st_vars st))) (fun h =>
        Ok (store_shared st x (map (rename_one dictionary) (h_names h)) (h_core h), None))
    (* edge_operator.hpp:126-137: nothing but names changes, the core is shared; else a new core, line 495 *)
    | SEdge x y a =>
        bind (get_or_ub (mfind y (st_vars st))) (fun h =>
        if edge_unchanged (h_names h) a then Ok (store_shared st x (a_new_names a) (h_core h), None)
        else
          bind (read_or_ub st y) (fun t =>
          settle st (edge_operator E t a) (fun t' => Ok (store_fresh st x t', None))))
    | SCompute x ys f =>
        bind (mapM (read_or_ub st) ys) (fun ts => settle st (f ts) (fun t => Ok (store_fresh st x t, None)))
    | SDrop x => Ok (drop st x, None)
    (* tensor.hpp:284-293 *)
    | STransform x f => mutate st x (fun names c => Ok (t_core (transform f (mkTensor names c))))
    (* tensor.hpp:301-338 *)
    | SSet x g =>
        mutate st x (fun names c => Ok (t_core (set_tensor (fun i => (g i, Datatypes.S i)) 0 (mkTensor names c))))
    (* get_item.hpp:136-155 *)
    | SAt x pos v =>
        mutate st x (fun names c => bind (locate names c pos) (fun ko => poke c (fst ko) (snd ko) v))
    (* get_item.hpp:107-123 *)
    | SBlock x pos g =>
        mutate st x (fun names c =>
          bind (block_key names c pos) (fun key =>
          bind (get_or_ub (mfind key (c_blocks c))) (fun b =>
          Ok (mkCore (c_edges c) (mset key (g b) (c_blocks c))))))
    (* scalar.hpp:171-185 *)
    | SNumber x op v => mutate st x (fun names c => Ok (t_core (transform (fun a => op a v) (mkTensor names c))))
    (* the same with number_2 a reference to an element: the loop writes through a pointer declared __restrict
       (scalar.hpp:178), so it must not change what number_2 refers to *)
    | SNumberAt x op y pos =>
        bind (get_or_ub (mfind y (st_vars st))) (fun hy =>
        bind (fetch st (h_core hy)) (fun cy =>
        settle st (locate (h_names hy) cy pos) (fun ko =>
        bind (unshare st x) (fun sh =>
        let (st1, h) := sh in
        if Nat.eqb (h_core h) (h_core hy) then UB
        else
          bind (fetch st1 (h_core hy)) (fun cy1 =>
          bind (peek cy1 (fst ko) (snd ko)) (fun v =>
          bind (fetch st1 (h_core h)) (fun c =>
          Ok (overwrite st1 (h_core h) (t_core (transform (fun a => op a v) (mkTensor (h_names h) c))), None))))))))
    (* scalar.hpp:142-170; a and b are both declared __restrict (lines 157-158): when they are the same block the
       behaviour is undefined *)
    | STensor x op y =>
        bind (unshare st x) (fun sh =>
        let (st1, h) := sh in
        bind (get_or_ub (mfind y (st_vars st1))) (fun hy =>
        bind (fetch st1 (h_core hy)) (fun cy =>
        bind (fetch st1 (h_core h)) (fun c =>
        settle st1 (aligned E (h_names h) (mkTensor (h_names hy) cy)) (fun t2 =>
        if negb (edges_eqb (c_edges c) (t_edges t2))
        then Ok (st1, Some (RuntimeError "Scalar Operator In Different Shape Tensor, Maybe You Need Outplace Operator"))
        else if Nat.eqb (h_core h) (h_core hy) && names_eqb (h_names h) (h_names hy)
                && existsb (fun kb => negb (is_nil (snd kb))) (c_blocks c)
        then UB
        else
          bind (inplace_blocks op (t_blocks t2) (c_blocks c)) (fun be =>
          Ok (overwrite st1 (h_core h) (mkCore (c_edges c) (fst be)), snd be)))))))
    | SRef r x pos =>
        bind (unshare st x) (fun sh =>
        let (st1, h) := sh in
        bind (fetch st1 (h_core h)) (fun c =>
        settle st1 (locate (h_names h) c pos) (fun ko =>
        Ok (mkState (st_heap st1) (st_vars st1) (mset r (h_core h, fst ko, snd ko) (st_refs st1)) (st_next st1), None))))
    | SWrite r v =>
        bind (get_or_ub (mfind r (st_refs st))) (fun l =>
        bind (fetch st (fst (fst l))) (fun c =>
        bind (poke c (snd (fst l)) (snd l) v) (fun c' =>
        Ok (overwrite st (fst (fst l)) c', None))))
    end.

  (** a program: a statement that throws is left, and the program goes on after a handler *)
  Fixpoint run (st : state) (p : list stmt) : res state :=
    match p with
    | [] => Ok st
    | s :: p' => bind (step st s) (fun r => run (fst r) p')
    end.
End Cow.
