(** C26: copies are independent.  C62: in-place arithmetic of a tensor with itself.  C63: references kept by the program.

    A program is a list of statements over tensor variables; a statement may throw, and the program goes on.  [read st x] is what can
    be read through x: names, edges and elements. *)
From Coq Require Import String List Bool Arith ZArith.
From Verif Require Import Base.Outcome Base.SMap Model.Symmetry Model.Edge Model.Core Model.EdgeOperator Model.Elementwise Model.Cow
  Spec.Copies Proof.SymmetryFacts Proof.ScalarZ Proof.ExTensors Proof.CowFacts Proof.CowStep Proof.CowSelf Proof.CowMain.
Import ListNotations.

(** ** C26.  After any history p, statements that do not name y as the variable they assign or change leave what y reads as it was,
    whoever shares its data. *)
Theorem C26_other_tensors_unchanged :
  forall (S R : Type) (SS : Sym S) (SL : SymLaws S) (RR : Scalar R) (E : @env R) (p q : list (@stmt S R)) st1 st2 y,
  run E empty_state p = Ok st1 -> run E st1 q = Ok st2 -> forallb direct q = true -> ~ In y (flat_map touched q) ->
  read st2 y = read st1 y.
Proof. exact @others_unchanged. Qed.
Print Assumptions C26_other_tensors_unchanged.

(** every statement does to the variables what it would do if each had a tensor of its own ([own], Spec/Copies.v); when it throws,
    all variables read as before (except possibly the left side of tensor op= tensor when a block is missing) *)
Theorem C26_as_if_not_shared :
  forall (S R : Type) (SS : Sym S) (SL : SymLaws S) (RR : Scalar R) (E : @env R) (p : list (@stmt S R)) st s,
  run E empty_state p = Ok st -> direct s = true -> no_self s = true ->
  match own E (read st) s with
  | Ok f => exists st', step E st s = Ok (st', None) /\ forall y, read st' y = f y
  | Throw e => exists st', step E st s = Ok (st', Some e) /\
      forall y, (forall x op z, s = STensor x op z -> e <> OutOfRange) -> read st' y = read st y
  | UB => step E st s = UB
  | OutOfFuel => step E st s = OutOfFuel
  end.
Proof. exact @as_if_own. Qed.
Print Assumptions C26_as_if_not_shared.

(** data is kept exactly as long as a variable holds it: the use count of every core alive is the number of its holders, not zero,
    and the core of every variable is alive *)
Theorem C26_lifetime :
  forall (S R : Type) (SS : Sym S) (SL : SymLaws S) (RR : Scalar R) (E : @env R) (p : list (@stmt S R)) st,
  run E empty_state p = Ok st ->
  (forall a n c, mfind a (st_heap st) = Some (n, c) ->
     n = length (filter (fun xh => Nat.eqb (h_core (snd xh)) a) (st_vars st)) /\ n <> 0) /\
  (forall x h, mfind x (st_vars st) = Some h -> exists n c, mfind (h_core h) (st_heap st) = Some (n, c)).
Proof. exact @counts. Qed.
Print Assumptions C26_lifetime.

Definition at1 : position (S := unit) := [(1, (tt, 1))].
Definition hist : list (@stmt unit Z) :=
  [SNew 0 [1] [v2] false; SSet 0 (fun i => Z.of_nat i); SCopy 1 0; SRename 2 1 [(1, 4)]; SEdge 3 0 (no_args [1]); SDrop 1].
Definition later : list (@stmt unit Z) :=
  [SAt 0 at1 9%Z; SNumber 2 Z.mul 3%Z; SAt 0 [] 4%Z; STensor 0 Z.add 3; STransform 2 (fun _ => 0%Z); SBlock 0 [] (map Z.opp)].
(** three holders of one core before the changes, one afterwards; the element of variable 3 stays 1, that of 0 becomes -(9+1) *)
Example C26_example :
  bind (run exE empty_state hist) (fun st => Ok (map (fun x => fst (snd x)) (st_heap st))) = Ok [3] /\
  forallb direct later = true /\ ~ In 3 (flat_map touched later) /\
  bind (run exE empty_state hist) (fun st => bind (run exE st later) (fun st2 => Ok (map (fun x => fst (snd x)) (st_heap st2)))) = Ok [1; 1; 1] /\
  bind (run exE empty_state hist) (fun st => elem0 st 3) = Ok 1%Z /\
  bind (run exE empty_state hist) (fun st => bind (run exE st later) (fun st2 => elem0 st2 3)) = Ok 1%Z /\
  bind (run exE empty_state hist) (fun st => bind (run exE st later) (fun st2 => elem0 st2 0)) = Ok (-10)%Z /\
  forallb no_self later = true /\
  bind (run exE empty_state hist) (fun st => bind (step exE st (SAt 0 [] 4%Z)) (fun r => Ok (snd r))) =
    Ok (Some (RuntimeError "Name not found in position map when finding block and offset")).
Proof.
  split; [vm_compute; reflexivity|]. split; [reflexivity|]. split; [simpl; intuition discriminate|].
  repeat split; vm_compute; reflexivity.
Qed.

(** ** C62.  Both operands of t op= u, and the number of t op= c, are read through pointers or references while t is written through
    a pointer declared not to alias.  t op= t is undefined as soon as t has an element. *)
Theorem C62_self_tensor_refuted :
  forall (S R : Type) (SS : Sym S) (SL : SymLaws S) (RR : Scalar R) (E : @env R) (p : list (@stmt S R)) st x t op,
  run E empty_state p = Ok st -> read st x = Some t -> (exists key a b, In (key, a :: b) (t_blocks t)) ->
  step E st (STensor x op x) = UB.
Proof. exact @self_tensor. Qed.
Print Assumptions C62_self_tensor_refuted.
(** the same for a number that is a reference to an element of t, when t is not shared *)
Theorem C62_self_number_refuted :
  forall (S R : Type) (SS : Sym S) (SL : SymLaws S) (RR : Scalar R) (E : @env R) (p : list (@stmt S R)) st x t op pos v h c,
  run E empty_state p = Ok st -> mfind x (st_vars st) = Some h -> mfind (h_core h) (st_heap st) = Some (1, c) ->
  read st x = Some t -> const_at t pos = Ok v -> step E st (SNumberAt x op x pos) = UB.
Proof. exact @self_number_sole. Qed.
Print Assumptions C62_self_number_refuted.
(** when t is shared the data is copied first and the result is the wanted one *)
Theorem C62_shared_number_partial :
  forall (S R : Type) (SS : Sym S) (SL : SymLaws S) (RR : Scalar R) (E : @env R) (p : list (@stmt S R)) st x t op pos v h n c,
  run E empty_state p = Ok st -> mfind x (st_vars st) = Some h -> mfind (h_core h) (st_heap st) = Some (n, c) -> n <> 1 ->
  read st x = Some t -> const_at t pos = Ok v ->
  exists st', step E st (SNumberAt x op x pos) = Ok (st', None) /\
    read st' x = Some (transform (fun a => op a v) t) /\ forall y, y <> x -> read st' y = read st y.
Proof. exact @self_number_shared. Qed.
Print Assumptions C62_shared_number_partial.
Definition alone : list (@stmt unit Z) := [SNew 0 [1] [v2] false; SSet 0 (fun i => Z.of_nat i + 2)%Z].
Example C62_example :
  bind (run exE empty_state alone) (fun st => Ok (map (fun x => fst (snd x)) (st_heap st))) = Ok [1] /\
  bind (run exE empty_state alone) (fun st => elem0 st 0) = Ok 3%Z /\
  bind (run exE empty_state alone) (fun st => step exE st (SNumberAt 0 Z.mul 0 at1)) = UB /\
  bind (run exE empty_state alone) (fun st => step exE st (STensor 0 Z.add 0)) = UB /\
  bind (run exE empty_state (alone ++ [SCopy 1 0])) (fun st => bind (step exE st (SNumberAt 0 Z.mul 0 at1)) (fun r => elem0 (fst r) 0)) = Ok 9%Z /\
  bind (run exE empty_state (alone ++ [SCopy 1 0])) (fun st => bind (step exE st (SNumberAt 0 Z.mul 0 at1)) (fun r => elem0 (fst r) 1)) = Ok 3%Z.
Proof. repeat split; vm_compute; reflexivity. Qed.

(** ** C63.  A reference taken from x and kept while x is copied writes into the copy too. *)
Theorem C63_refuted :
  ~ (forall (p1 p2 : list (@stmt unit Z)) r x pos y v st1 st2, y <> x ->
       run exE empty_state (p1 ++ SRef r x pos :: p2) = Ok st1 ->
       (forall x' pos', ~ In (SRef r x' pos') p2) ->
       step exE st1 (SWrite r v) = Ok (st2, None) -> read st2 y = read st1 y).
Proof. exact held_reference. Qed.
Print Assumptions C63_refuted.
(** a reference used at once writes the element it was taken for, and no other tensor *)
Theorem C63_used_at_once_partial :
  forall (S R : Type) (SS : Sym S) (SL : SymLaws S) (RR : Scalar R) (E : @env R) (p : list (@stmt S R)) st r x pos v st1,
  run E empty_state p = Ok st -> step E st (SRef r x pos) = Ok (st1, None) ->
  exists st2 t t', step E st1 (SWrite r v) = Ok (st2, None) /\ read st x = Some t /\ set_at t pos v = Ok t' /\
    read st2 x = Some t' /\ forall y, y <> x -> read st2 y = read st y.
Proof. exact @ref_at_once. Qed.
Print Assumptions C63_used_at_once_partial.
Example C63_example :
  bind before_write (fun st => elem0 st 1) = Ok 5%Z /\
  bind before_write (fun st => bind (step exE st (SWrite 0 7%Z)) (fun r => elem0 (fst r) 1)) = Ok 7%Z /\
  bind (run exE empty_state (hist ++ [SRef 0 0 at1; SWrite 0 8%Z])) (fun st => elem0 st 0) = Ok 8%Z /\
  bind (run exE empty_state (hist ++ [SRef 0 0 at1; SWrite 0 8%Z])) (fun st => elem0 st 3) = Ok 1%Z.
Proof. repeat split; vm_compute; reflexivity. Qed.
