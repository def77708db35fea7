(** What a program over tensor variables may rely on: every variable behaves as if it had a tensor of its own. *)
From Coq Require Import List Bool Arith.
From Verif Require Import Base.Outcome Base.SMap Model.Symmetry Model.Edge Model.Core Model.EdgeOperator
  Model.Elementwise Model.Cow.
Import ListNotations.

Section Copies.
  Context {S R : Type} {SS : Sym S} {RR : Scalar R}.
  Variable E : @env R.
  Notation stmt := (@stmt S R).

  (** the variables whose tensor a statement replaces or changes *)
  Definition touched (s : stmt) : list nat :=
    match s with
    | SNew x _ _ _ | SCopy x _ | SDeep x _ | SRename x _ _ | SEdge x _ _ | SCompute x _ _ | SDrop x
    | STransform x _ | SSet x _ | SAt x _ _ | SBlock x _ _ | SNumber x _ _ | SNumberAt x _ _ _ | STensor x _ _ => [x]
    | SMove x y => [x; y]
    | SRef _ _ _ | SWrite _ _ => []
    end.

  (** not an assignment through a reference kept from an earlier statement *)
  Definition direct (s : stmt) : bool := match s with SWrite _ _ => false | _ => true end.

  (** no part of the statement reads the tensor it is changing *)
  Definition no_self (s : stmt) : bool :=
    match s with
    | SMove x y | SNumberAt x _ y _ | STensor x _ y => negb (Nat.eqb x y)
    | _ => true
    end.

  (** variables with tensors of their own *)
  Definition upd (f : nat -> option (tensor S R)) (x : nat) (t : option (tensor S R)) : nat -> option (tensor S R) :=
    fun y => if Nat.eqb y x then t else f y.

  Definition on (f : nat -> option (tensor S R)) (x : nat) (g : tensor S R -> res (tensor S R))
      : res (nat -> option (tensor S R)) :=
    bind (get_or_ub (f x)) (fun t => bind (g t) (fun t' => Ok (upd f x (Some t')))).

  Definition set_block (t : tensor S R) (pos : list (name * S)) (g : list R -> list R) : res (tensor S R) :=
    bind (block_key (t_names t) (t_core t) pos) (fun key =>
    bind (get_or_ub (mfind key (t_blocks t))) (fun b =>
    Ok (mkTensor (t_names t) (mkCore (t_edges t) (mset key (g b) (t_blocks t)))))).

  Definition own (f : nat -> option (tensor S R)) (s : stmt) : res (nat -> option (tensor S R)) :=
    match s with
    | SNew x names edges r => bind (make_tensor (env_junk E) names edges r) (fun t => Ok (upd f x (Some t)))
    | SCopy x y => Ok (upd f x (f y))
    | SMove x y => Ok (upd (upd f x (f y)) y None)
    | SDeep x y => bind (get_or_ub (f y)) (fun t => Ok (upd f x (Some t)))
    | SRename x y d => bind (get_or_ub (f y)) (fun t => Ok (upd f x (Some (edge_rename t d))))
    | SEdge x y a => bind (get_or_ub (f y)) (fun t => bind (edge_operator E t a) (fun t' => Ok (upd f x (Some t'))))
    | SCompute x ys g =>
        bind (mapM (fun y => get_or_ub (f y)) ys) (fun ts => bind (g ts) (fun t => Ok (upd f x (Some t))))
    | SDrop x => Ok (upd f x None)
    | STransform x g => on f x (fun t => Ok (transform g t))
    | SSet x g => on f x (fun t => Ok (set_tensor (fun i => (g i, Datatypes.S i)) 0 t))
    | SAt x pos v => on f x (fun t => set_at t pos v)
    | SBlock x pos g => on f x (fun t => set_block t pos g)
    | SNumber x op v => on f x (fun t => Ok (transform (fun a => op a v) t))
    | SNumberAt x op y pos =>
        bind (get_or_ub (f y)) (fun ty =>
        bind (const_at ty pos) (fun v => on f x (fun t => Ok (transform (fun a => op a v) t))))
    | STensor x op y =>
        bind (get_or_ub (f x)) (fun t =>
        bind (get_or_ub (f y)) (fun t2 =>
        bind (scalar_inplace E op t t2) (fun t' => Ok (upd f x (Some t')))))
    | SRef _ x pos => bind (get_or_ub (f x)) (fun t => bind (const_at t pos) (fun _ => Ok f))
    | SWrite _ _ => Ok f
    end.
End Copies.
