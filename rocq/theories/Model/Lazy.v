(** Lazy evaluation graphs.  include/lazy.hpp.
    Simplifications: one value type V for all cells; the functions given by the user are total and pure and return by value; one graph
    ([default_graph]); arguments are evaluated from left to right (C++ leaves the order open).
    Cells are numbered in order of creation and never renumbered; a destroyed cell stays in the list with [c_alive = false].
    A shared_ptr's object carries a stamp, so that a reference to an object that has been released or replaced can be told. *)
From Coq Require Import List Bool Arith.
From Verif Require Import Base.Outcome.
Import ListNotations.

Section Lazy.
  Context {V : Type}.

  (** root (116-153), node (156-197), path (96-113); args: the shared_ptrs captured by function_wrapper (250-252) *)
  Inductive kind := KRoot | KNode (f : list V -> V) (args : list nat) | KPath (f : list V -> V) (args : list nat).
  (** c_value: the member [value] with the stamp of its object (always None in a path); c_down: [downstream] (77);
      c_held: shared_ptrs held by the user; c_alive: weak_ptr::lock succeeds *)
  Record cell := mkCell { c_kind : kind; c_value : option (nat * V); c_down : list nat; c_held : nat; c_alive : bool }.
  (** clock: next stamp; nodes: Graph::nodes (206) *)
  Record graph := mkGraph { cells : list cell; clock : nat; nodes : list nat }.
  (** Snapshot (200) *)
  Definition snapshot := list (nat * option (nat * V)).

  Definition cell_args (c : cell) : list nat := match c_kind c with KRoot => [] | KNode _ a => a | KPath _ a => a end.
  Definition cell_at (g : graph) (i : nat) : option cell := nth_error (cells g) i.
  Fixpoint update {A} (i : nat) (f : A -> A) (l : list A) : list A :=
    match l, i with [], _ => [] | a :: l, 0 => f a :: l | a :: l, S i => a :: update i f l end.
  Definition modify (i : nat) (f : cell -> cell) (g : graph) : graph := mkGraph (update i f (cells g)) (clock g) (nodes g).
  Definition with_value (v : option (nat * V)) (c : cell) : cell := mkCell (c_kind c) v (c_down c) (c_held c) (c_alive c).
  Definition with_down (d : list nat) (c : cell) : cell := mkCell (c_kind c) (c_value c) d (c_held c) (c_alive c).
  Definition with_held (n : nat) (c : cell) : cell := mkCell (c_kind c) (c_value c) (c_down c) n (c_alive c).
  Definition with_alive (b : bool) (c : cell) : cell := mkCell (c_kind c) (c_value c) (c_down c) (c_held c) b.

  Definition alive (g : graph) (i : nat) : bool := match cell_at g i with Some c => c_alive c | None => false end.
  Definition held (g : graph) (i : nat) : bool := match cell_at g i with Some c => negb (Nat.eqb (c_held c) 0) | None => false end.

  (** release, 100, 120-122, 162-164; a path has no value, so None is right for it too *)
  Definition release (i : nat) (g : graph) : graph := modify i (with_value None) g.

  (** lazy_base::unset, 61-71 *)
  Fixpoint unset (fuel : nat) (i : nat) (g : graph) : res graph :=
    match fuel with
    | 0 => OutOfFuel
    | S fuel =>
        bind (get_or_ub (cell_at g i)) (fun c =>
        bind (foldM (fun g d => if alive g d then unset fuel d g else Ok g) (c_down c) (release i g)) (fun g' =>
        Ok (modify i (with_down (filter (alive g') (c_down c))) g')))
    end.

  (** value.reset(new Type(v)) *)
  Definition store (i : nat) (v : V) (g : graph) : graph :=
    let g' := modify i (with_value (Some (clock g, v))) g in mkGraph (cells g') (S (clock g)) (nodes g').
  (** set, 139-146 and 166-173 *)
  Definition set (i : nat) (v : V) (g : graph) : res graph :=
    bind (unset (length (cells g)) i g) (fun g' => Ok (store i v g')).

  (** what get returns: a temporary (path) or a reference into a cell's object (root, node) *)
  Inductive answer := Temporary (v : V) | Reference (i stamp : nat) (v : V).
  Definition answer_value (a : answer) : V := match a with Temporary v => v | Reference _ _ v => v end.
  (** the reference still denotes the object in the cell *)
  Definition valid (g : graph) (a : answer) : bool :=
    match a with
    | Temporary _ => true
    | Reference i s _ => match cell_at g i with Some c => match c_value c with Some (s', _) => Nat.eqb s s' | None => false end | None => false end
    end.

  (** get, 103-105, 125-127, 176-181, with function_wrapper's closure (250-252) inlined: all arguments are obtained, then the function is
      applied to the references; using a reference that has become invalid is undefined *)
  Fixpoint get (fuel : nat) (i : nat) (g : graph) : res (answer * graph) :=
    match fuel with
    | 0 => OutOfFuel
    | S fuel =>
        let call (f : list V -> V) (args : list nat) :=
          bind (foldM (fun st a => bind (get fuel a (snd st)) (fun r => Ok (fst st ++ [fst r], snd r))) args ([], g)) (fun st =>
          if forallb (valid (snd st)) (fst st) then Ok (f (map answer_value (fst st)), snd st) else UB) in
        bind (get_or_ub (cell_at g i)) (fun c =>
        match c_kind c, c_value c with
        | KRoot, Some (s, v) => Ok (Reference i s v, g)
        | KRoot, None => UB
        | KPath f args, _ => bind (call f args) (fun r => Ok (Temporary (fst r), snd r))
        | KNode f args, Some (s, v) => Ok (Reference i s v, g)
        | KNode f args, None =>
            bind (call f args) (fun r =>
            bind (set i (fst r) (snd r)) (fun g' =>
            bind (get_or_ub (cell_at g' i)) (fun c' =>
            match c_value c' with Some (s, v) => Ok (Reference i s v, g') | None => UB end)))
        end)
    end.

  (** make_shared, then current_graph().add (232-235) for data nodes *)
  Definition add_cell (k : kind) (g : graph) : graph :=
    let i := length (cells g) in
    mkGraph (cells g ++ [mkCell k None [] 1 true]) (clock g) (match k with KPath _ _ => nodes g | _ => nodes g ++ [i] end).
  (** (args->downstream.push_back(result), ...), 277 and 288 *)
  Definition subscribe (args : list nat) (i : nat) (g : graph) : graph :=
    fold_left (fun g a => modify a (fun c => with_down (c_down c ++ [i]) c) g) args g.
  (** Root, 254-269 *)
  Definition new_root (v : option V) (g : graph) : res graph :=
    let g' := add_cell KRoot g in
    match v with Some v => set (length (cells g)) v g' | None => Ok g' end.
  (** Node, Path, 271-290 *)
  Definition new_computed (k : kind) (args : list nat) (g : graph) : graph := subscribe args (length (cells g)) (add_cell k g).

  (** reference counting: a cell is destroyed when the user holds no pointer to it and no living cell captured one.  Captured pointers
      refer to older cells, so one pass from the newest to the oldest cell finds all that die. *)
  Definition captured (g : graph) (i : nat) : bool := existsb (fun c => c_alive c && existsb (Nat.eqb i) (cell_args c)) (cells g).
  Fixpoint collect (i : nat) (g : graph) : graph :=
    match i with
    | 0 => g
    | S i => let g' := if held g i || captured g i then g else modify i (with_alive false) g in collect i g'
    end.
  Definition drop (i : nat) (g : graph) : graph :=
    let g' := modify i (fun c => with_held (c_held c - 1) c) g in collect (length (cells g')) g'.

  (** Graph::dump, 208-219 *)
  Definition dump (g : graph) : graph * snapshot :=
    let ns := filter (alive g) (nodes g) in
    (mkGraph (cells g) (clock g) ns, map (fun i => (i, match cell_at g i with Some c => c_value c | None => None end)) ns).
  (** Graph::load, 220-230; the entries of destroyed cells are removed from the snapshot *)
  Definition load (s : snapshot) (g : graph) : graph * snapshot :=
    let s' := filter (fun iv => alive g (fst iv)) s in
    (fold_left (fun g iv => modify (fst iv) (with_value (snd iv)) g) s' g, s').

  (** a user program; cells and snapshots are named by order of creation *)
  Inductive op :=
  | NewRoot (v : option V) | NewNode (f : list V -> V) (args : list nat) | NewPath (f : list V -> V) (args : list nat)
  | SetRoot (i : nat) (v : V) | UnsetRoot (i : nat) | Read (i : nat) | CopyHandle (i : nat) | DropHandle (i : nat) | Dump | Load (k : nat).

  Record machine := mkMachine { graph_of : graph; snapshots : list snapshot }.
  Definition start : machine := mkMachine (mkGraph [] 0 []) [].
  Definition is_root (g : graph) (i : nat) : bool := match cell_at g i with Some c => match c_kind c with KRoot => true | _ => false end | None => false end.

  (** one call; the value read, if any.  UB stands also for programs that cannot be written: using a pointer one does not hold *)
  Definition step (o : op) (m : machine) : res (list V * machine) :=
    let g := graph_of m in
    let continue_with (g' : graph) := mkMachine g' (snapshots m) in
    match o with
    | NewRoot v => bind (new_root v g) (fun g' => Ok ([], continue_with g'))
    | NewNode f args => if forallb (held g) args then Ok ([], continue_with (new_computed (KNode f args) args g)) else UB
    | NewPath f args => if forallb (held g) args then Ok ([], continue_with (new_computed (KPath f args) args g)) else UB
    | SetRoot i v => if held g i && is_root g i then bind (set i v g) (fun g' => Ok ([], continue_with g')) else UB
    | UnsetRoot i => if held g i && is_root g i then bind (unset (length (cells g)) i g) (fun g' => Ok ([], continue_with g')) else UB
    | Read i => if held g i then bind (get (S (length (cells g))) i g) (fun r => Ok ([answer_value (fst r)], continue_with (snd r))) else UB
    | CopyHandle i => if held g i then Ok ([], continue_with (modify i (fun c => with_held (c_held c + 1) c) g)) else UB
    | DropHandle i => if held g i then Ok ([], continue_with (drop i g)) else UB
    | Dump => Ok ([], mkMachine (fst (dump g)) (snapshots m ++ [snd (dump g)]))
    | Load k => bind (get_or_ub (nth_error (snapshots m) k)) (fun s =>
        Ok ([], mkMachine (fst (load s g)) (update k (fun _ => snd (load s g)) (snapshots m))))
    end.

  Definition run (ops : list op) : res (list V * machine) :=
    foldM (fun st o => bind (step o (snd st)) (fun r => Ok (fst st ++ fst r, snd r))) ops ([], start).
End Lazy.
Arguments kind : clear implicits.
Arguments cell : clear implicits.
Arguments graph : clear implicits.
Arguments op : clear implicits.
Arguments answer : clear implicits.
Arguments snapshot : clear implicits.
Arguments machine : clear implicits.
