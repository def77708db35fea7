(** Edges and the enumeration of charge tuples: include/TAT/edge.hpp. *)
From Coq Require Import List Bool ZArith.
From Verif Require Import Base.Outcome Base.SMap Model.Symmetry.
Import ListNotations.

(** BoseEdge (edge.hpp:117-155) and FermiEdge (edge.hpp:166-238).  A bosonic edge has no arrow;
    the model keeps the field and never reads it when [is_fermi] is false. *)
Record edge (S : Type) : Type := mkEdge { earrow : bool; emap : list (S * nat) }.
Arguments mkEdge {S} earrow emap.
Arguments earrow {S} e.
Arguments emap {S} e.

Section Edge.
  Context {S : Type} {SS : Sym S}.

  (** FermiEdge::possible_reverse, edge.hpp:219-226 *)
  Definition possible_reverse (e : edge S) : edge S :=
    if existsb (fun sd => Z.ltb (sfermi (fst sd)) 0) (emap e)
    then mkEdge (negb (earrow e)) (emap e) else e.

  (** FermiEdge::arrow_valid, edge.hpp:231-238 *)
  Definition arrow_valid (e : edge S) : bool :=
    existsb (fun sd => negb (Z.eqb (sfermi (fst sd)) 0)) (emap e).

  (** dereference every iterator of symmetry_iterator_list; an iterator is the remaining suffix of its map *)
  Fixpoint heads (its : list (list (S * nat))) : option (list (S * nat)) :=
    match its with
    | [] => Some []
    | (x :: _) :: its' => match heads its' with Some xs => Some (x :: xs) | None => None end
    | [] :: _ => None
    end.

  (** edge.hpp:300-309: increment the last iterator; whenever one reaches the end reset it and carry to the
      previous one.  [None]: the first iterator reached its end (return).  [Some (its', p)]: new iterators and
      the final value of edge_position. *)
  Fixpoint advance (maps its : list (list (S * nat))) (pos : nat) : option (list (list (S * nat)) * nat) :=
    match maps, its with
    | m :: ms, it :: its' =>
        match advance ms its' (1 + pos) with
        | Some (its'', p) => Some (it :: its'', p)
        | None => match tl it with
                  | [] => None
                  | it' => Some (it' :: ms, pos)
                  end
        end
    | _, _ => None
    end.

  (** the while(true) of edge.hpp:298-310; [operate] returns the new state and the new minimum_changed *)
  Fixpoint loop_edge_from {St : Type} (fuel : nat) (maps : list (list (S * nat)))
      (operate : St -> list (S * nat) -> nat -> St * nat)
      (its : list (list (S * nat))) (minimum_changed : nat) (st : St) : res St :=
    match fuel with
    | O => OutOfFuel
    | Datatypes.S fuel' =>
        match heads its with
        | None => UB
        | Some cur =>
            let '(st', mc) := operate st cur minimum_changed in
            match advance maps its 0 with
            | None => Ok st'
            | Some (its', edge_position) =>
                loop_edge_from fuel' maps operate its' (Nat.min mc edge_position) st'
            end
        end
    end.

  Definition count_tuples (maps : list (list (S * nat))) : nat :=
    fold_right (fun m n => length m * n) 1 maps.

  (** loop_edge, edge.hpp:278-311 *)
  Definition loop_edge {St : Type} (maps : list (list (S * nat)))
      (rank0 dims0 : St -> St) (operate : St -> list (S * nat) -> nat -> St * nat) (st : St) : res St :=
    match maps with
    | [] => Ok (rank0 st)
    | _ => if existsb (fun m => match m with [] => true | _ => false end) maps then Ok (dims0 st)
           else loop_edge_from (1 + count_tuples maps) maps operate maps 0 st
    end.

  (** for (i = mc; i < rank; i++) sizes[i] = dim[i] * (i ? sizes[i-1] : 1);   edge.hpp:336, 447-448 *)
  Fixpoint accumulate {A : Type} (f : A -> A -> A) (prev : A) (l : list A) : list A :=
    match l with
    | [] => []
    | d :: l' => let v := f d prev in v :: accumulate f v l'
    end.
  Definition accumulate_from {A : Type} (f : A -> A -> A) (unit : A) (mc : nat) (old : list A) (new : list A) : list A :=
    firstn mc old ++ accumulate f (last (firstn mc old) unit) (skipn mc new).

  (** state of initialize_block_symmetries_with_check: result, symmetries, sizes *)
  Definition block_state : Type := (list (list S * nat) * list S * list nat)%type.

  (** the operate lambda, edge.hpp:328-342 *)
  Definition block_operate (rank : nat) (st : block_state) (cur : list (S * nat)) (mc : nat) : block_state * nat :=
    let '(result, symmetries, sizes) := st in
    if eqb (ssum (map fst cur)) szero then
      let symmetries' := firstn mc symmetries ++ skipn mc (map fst cur) in
      let sizes' := accumulate_from Nat.mul 1 mc sizes (map snd cur) in
      ((result ++ [(symmetries', last sizes' 0)], symmetries', sizes'), rank)
    else (st, mc).

  (** initialize_block_symmetries_with_check, edge.hpp:315-344 *)
  Definition initialize_block_symmetries (maps : list (list (S * nat))) : res (list (list S * nat)) :=
    let rank := length maps in
    bind (loop_edge maps
            (fun st : block_state => let '(r, a, b) := st in (r ++ [([], 1)], a, b))
            (fun st => st)
            (block_operate rank)
            ([], repeat szero rank, repeat 0 rank))
         (fun st => Ok (fst (fst st))).
End Edge.
