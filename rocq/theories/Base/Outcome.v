(** Outcomes of a C++ call: normal return, exception, undefined behaviour.
    [OutOfFuel] is a modelling artefact: a fuelled loop that did not finish;
    termination theorems show it never occurs. *)
From Coq Require Import String List.
Import ListNotations.

(** Exceptions thrown by the code: [TAT_error] throws std::runtime_error
    (include/TAT/mpi.hpp:336-338); std::map::at throws std::out_of_range; the lattice code throws
    NotImplementedError (include/square/basic.hpp:32-34) and std::logic_error
    (include/square/auxiliaries_system.hpp:486). *)
Inductive exn : Type :=
| RuntimeError (msg : string)
| OutOfRange
| NotImplementedError (msg : string)
| LogicError (msg : string).

Inductive res (A : Type) : Type :=
| Ok (a : A)
| Throw (e : exn)
| UB
| OutOfFuel.
Arguments Ok {A} a.
Arguments Throw {A} e.
Arguments UB {A}.
Arguments OutOfFuel {A}.

Definition bind {A B : Type} (m : res A) (f : A -> res B) : res B :=
  match m with
  | Ok a => f a
  | Throw e => Throw e
  | UB => UB
  | OutOfFuel => OutOfFuel
  end.

Declare Scope res_scope.
Delimit Scope res_scope with res.
Notation "'let*' x ':=' m 'in' k" := (bind m (fun x => k))
  (at level 61, x name, m at next level, right associativity) : res_scope.
Notation "'let*' ' p ':=' m 'in' k" := (bind m (fun p => k))
  (at level 61, p pattern, m at next level, right associativity) : res_scope.

(** TAT_error(message) *)
Definition tat_error {A : Type} (msg : string) : res A := Throw (RuntimeError msg).

(** value of an optional lookup that throws std::out_of_range when absent (std::map::at) *)
Definition at_or_throw {A : Type} (o : option A) : res A :=
  match o with Some a => Ok a | None => Throw OutOfRange end.

(** value of an unchecked access (operator[] on a vector, dereference) *)
Definition get_or_ub {A : Type} (o : option A) : res A :=
  match o with Some a => Ok a | None => UB end.

(** monadic map over a list, left to right *)
Fixpoint mapM {A B : Type} (f : A -> res B) (l : list A) : res (list B) :=
  match l with
  | [] => Ok []
  | a :: l' => bind (f a) (fun b => bind (mapM f l') (fun bs => Ok (b :: bs)))
  end.

(** monadic left fold *)
Fixpoint foldM {A B : Type} (f : B -> A -> res B) (l : list A) (b : B) : res B :=
  match l with
  | [] => Ok b
  | a :: l' => bind (f b a) (fun b' => foldM f l' b')
  end.

Lemma mapM_ok_length : forall A B (f : A -> res B) l l',
  mapM f l = Ok l' -> length l' = length l.
Proof.
  induction l as [|a l IH]; simpl; intros l' H.
  - injection H as <-; reflexivity.
  - destruct (f a); try discriminate; simpl in H.
    destruct (mapM f l) eqn:E; try discriminate; simpl in H.
    injection H as <-. simpl. f_equal. apply IH. reflexivity.
Qed.

Lemma mapM_all_ok : forall A B (f : A -> res B) (g : A -> B) l,
  (forall a, In a l -> f a = Ok (g a)) -> mapM f l = Ok (map g l).
Proof.
  induction l as [|a l IH]; simpl; intros H; [reflexivity|].
  rewrite (H a) by (left; reflexivity). simpl.
  rewrite IH by (intros; apply H; right; assumption). reflexivity.
Qed.

Lemma foldM_app : forall A B (f : B -> A -> res B) l1 l2 b,
  foldM f (l1 ++ l2) b = bind (foldM f l1 b) (fun b' => foldM f l2 b').
Proof.
  induction l1 as [|a l1 IH]; simpl; intros; [reflexivity|].
  destruct (f b a); simpl; auto.
Qed.

(** A fold whose every step succeeds under an invariant. *)
Lemma foldM_inv : forall A B (f : B -> A -> res B) (P : list A -> B -> Prop) l done b,
  P done b ->
  (forall done' a rest b, done ++ l = done' ++ a :: rest -> P done' b ->
     exists b', f b a = Ok b' /\ P (done' ++ [a]) b') ->
  exists b', foldM f l b = Ok b' /\ P (done ++ l) b'.
Proof.
  intros A B f P l. induction l as [|a l IH]; intros done b Hb Hstep.
  - exists b. split; [reflexivity|]. now rewrite app_nil_r.
  - destruct (Hstep done a l b eq_refl Hb) as [b1 [E1 P1]].
    simpl. rewrite E1. simpl.
    destruct (IH (done ++ [a]) b1 P1) as [b2 [E2 P2]].
    + intros done' a' rest b0 E Hp. apply (Hstep done' a' rest b0); auto.
      rewrite <- app_assoc in E. exact E.
    + exists b2. split; [exact E2|]. rewrite <- app_assoc in P2. exact P2.
Qed.
