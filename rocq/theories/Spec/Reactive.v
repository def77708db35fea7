(** What a lazy graph should compute: cells without caches. *)
From Coq Require Import List Bool Arith.
From Verif Require Import Model.Lazy.
Import ListNotations.

Section Reactive.
  Context {V : Type}.
  (** a root with its present value, or a function of older cells *)
  Inductive def := Given (v : option V) | Computed (f : list V -> V) (args : list nat).

  Fixpoint all_some (l : list (option V)) : option (list V) :=
    match l with
    | [] => Some []
    | Some v :: l => match all_some l with Some vs => Some (v :: vs) | None => None end
    | None :: _ => None
    end.
  Definition value_in (older : list (option V)) (d : def) : option V :=
    match d with
    | Given v => v
    | Computed f args => option_map f (all_some (map (fun a => nth a older None) args))
    end.
  (** the values of all cells, from the oldest on; None: it depends on a root without value *)
  Definition meanings (ds : list def) : list (option V) := fold_left (fun older d => older ++ [value_in older d]) ds [].
  Definition meaning (ds : list def) (i : nat) : option V := nth i (meanings ds) None.

  (** the state a user has in mind: definitions, handles held, and for every snapshot the definitions of that time.
      [sound]: the cells whose value is promised.  Without Load that is every cell; after Load it is the cells that existed at the dump
      (and were promised then) and the younger ones that do not depend on them. *)
  Record world := mkWorld { defs : list def; handles : list nat; sound : list bool; saved : list (list def * list bool) }.
  Definition no_world : world := mkWorld [] [] [] [].

  Definition holds (w : world) (i : nat) : bool := negb (Nat.eqb (nth i (handles w) 0) 0).
  Definition is_given (w : world) (i : nat) : bool := match nth_error (defs w) i with Some (Given _) => true | _ => false end.

  Definition restore (old now : list def) : list def := old ++ skipn (length old) now.
  Fixpoint still_sound (done : list bool) (n : nat) (ds : list def) (ss : list bool) : list bool :=
    match ds, ss with
    | d :: ds, s :: ss =>
        let ok := match d with Given _ => true | Computed _ args => forallb (fun a => Nat.leb n a && nth a done false) args end in
        still_sound (done ++ [s && ok]) n ds ss
    | _, _ => done
    end.

  (** the effect of one call: None if the call is not allowed (a handle not held, a value that is not there or not promised) *)
  Definition expect (o : op V) (w : world) : option (list V * world) :=
    match o with
    | NewRoot v => Some ([], mkWorld (defs w ++ [Given v]) (handles w ++ [1]) (sound w ++ [true]) (saved w))
    | NewNode f args | NewPath f args =>
        if forallb (holds w) args then
          Some ([], mkWorld (defs w ++ [Computed f args]) (handles w ++ [1]) (sound w ++ [forallb (fun a => nth a (sound w) false) args]) (saved w))
        else None
    | SetRoot i v => if holds w i && is_given w i then Some ([], mkWorld (update i (fun _ => Given (Some v)) (defs w)) (handles w) (sound w) (saved w)) else None
    | UnsetRoot i => if holds w i && is_given w i then Some ([], mkWorld (update i (fun _ => Given None) (defs w)) (handles w) (sound w) (saved w)) else None
    | Read i =>
        if holds w i && nth i (sound w) false then
          match meaning (defs w) i with Some v => Some ([v], w) | None => None end
        else None
    | CopyHandle i => if holds w i then Some ([], mkWorld (defs w) (update i (fun n => n + 1) (handles w)) (sound w) (saved w)) else None
    | DropHandle i => if holds w i then Some ([], mkWorld (defs w) (update i (fun n => n - 1) (handles w)) (sound w) (saved w)) else None
    | Dump => Some ([], mkWorld (defs w) (handles w) (sound w) (saved w ++ [(defs w, sound w)]))
    | Load k =>
        match nth_error (saved w) k with
        | Some (old, s) => Some ([], mkWorld (restore old (defs w)) (handles w)
            (still_sound s (length old) (skipn (length old) (defs w)) (skipn (length old) (sound w))) (saved w))
        | None => None
        end
    end.

  Fixpoint expected (ops : list (op V)) (w : world) : option (list V * world) :=
    match ops with
    | [] => Some ([], w)
    | o :: ops =>
        match expect o w with
        | Some (out, w') => match expected ops w' with Some (outs, w'') => Some (out ++ outs, w'') | None => None end
        | None => None
        end
    end.
End Reactive.
Arguments def : clear implicits.
Arguments world : clear implicits.
