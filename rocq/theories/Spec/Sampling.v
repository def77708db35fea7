(** Spin configurations, operators acting on them, and what random programs do. *)
From Coq Require Import List Bool Arith ZArith Reals.
From Verif Require Import Base.Outcome Base.SMap Model.Symmetry Model.Schedule Model.Sampling Spec.Bonds Spec.Lattice.
Import ListNotations.
Open Scope Z_scope.

(** M rows of N spins, each one of d *)
Definition valid_spins (d : Z) (l : list Z) : Prop := forall s, In s l -> 0 <= s < d.
Definition valid_configuration (M N d : Z) (c : configuration) : Prop := rectangle M N c /\ forall row, In row c -> valid_spins d row.
(** each of them once *)
Definition enumerates (M N d : Z) (all : list configuration) : Prop := NoDup all /\ forall c, In c all <-> valid_configuration M N d c.
Definition spin (c : configuration) (p : Z * Z) : Z := nth (Z.to_nat (snd p)) (nth (Z.to_nat (fst p)) c []) 0.
Definition spins_at (c : configuration) (ps : list (Z * Z)) : list Z := map (spin c) ps.

Section Operator.
  Context {V : Type}.
  (** the elements of an operator on [body] sites of dimension d are given by el *)
  Definition acts_as (d : Z) (op : operator V) (el : list Z -> V) : Prop :=
    body op <> O /\ forall index, length index = (2 * body op)%nat -> valid_spins d index -> element op index = Ok (el index).
  Definition spins_of (d : Z) (n : nat) (l : list Z) : Prop := length l = n /\ valid_spins d l.
  Variable is_zero : V -> bool.
  (** no row of the operator is zero *)
  Definition no_zero_row (d : Z) (op : operator V) (el : list Z -> V) : Prop :=
    forall ins, spins_of d (body op) ins -> exists outs, spins_of d (body op) outs /\ is_zero (el (ins ++ outs)) = false.
  Definition symmetric_pattern (d : Z) (op : operator V) (el : list Z -> V) : Prop :=
    forall ins outs, spins_of d (body op) ins -> spins_of d (body op) outs -> is_zero (el (ins ++ outs)) = is_zero (el (outs ++ ins)).
End Operator.

(** a term whose hops can be undone: sites of the lattice without repetition, as many as the operator has, and elements that are non-zero in both directions *)
Definition hopping_term {V} (is_zero : V -> bool) (M N d : Z) (ps : list (Z * Z)) (op : operator V) : Prop :=
  NoDup ps /\ (forall p, In p ps -> inside M N p) /\ body op = length ps /\ exists el, acts_as d op el /\ symmetric_pattern is_zero d op el.
(** and no zero row *)
Definition safe_term {V} (is_zero : V -> bool) (M N d : Z) (ps : list (Z * Z)) (op : operator V) : Prop :=
  hopping_term is_zero M N d ps op /\ forall el, acts_as d op el -> no_zero_row is_zero d op el.

Definition rsum (l : list R) : R := fold_right Rplus 0%R l.
(** the expectation of g after a random program; executions that do not end normally count as 0 *)
Fixpoint expect {A} (m : rand A) (g : A -> R) : R :=
  match m with
  | Ret (Ok a) => g a
  | Ret _ => 0%R
  | Draw n k => (rsum (map (fun i => expect (k i) g) (seq 0 n)) / INR n)%R
  | Accept p k => (let q := Rmax 0 (Rmin 1 p) in q * expect (k true) g + (1 - q) * expect (k false) g)%R
  end.
(** a result that is no number counts as 0 *)
Definition value_of (v : option R) : R := match v with Some v => v | None => 0%R end.
(** every execution that can happen ends normally with a result in P *)
Fixpoint always {A} (m : rand A) (P : A -> Prop) : Prop :=
  match m with
  | Ret (Ok a) => P a
  | Ret _ => False
  | Draw n k => n <> O /\ forall i, (i < n)%nat -> always (k i) P
  | Accept p k => ((0 < p)%R -> always (k true) P) /\ ((p < 1)%R -> always (k false) P)
  end.
(** the probability to end in configuration c *)
Definition same_configuration (c c' : configuration) : bool := eqb c c'.
Definition chance {V} (m : rand (configuration * V)) (c : configuration) : R := expect m (fun cw => if same_configuration (fst cw) c then 1 else 0)%R.

(** the two configurations agree outside ps *)
Definition agree_off (M N : Z) (ps : list (Z * Z)) (c c' : configuration) : bool :=
  forallb (fun p => existsb (eqb p) ps || (spin c p =? spin c' p)%Z) (cells M N).
(** <psi| O |psi> / <psi|psi>, O acting on ps with the elements el.  [overlap a b]: the real part of conj(a) b *)
Definition expectation {V} (M N : Z) (ps : list (Z * Z)) (el : list Z -> V) (psi : configuration -> V) (times : V -> V -> V) (overlap : V -> V -> R) (all : list configuration) : R :=
  (rsum (map (fun c => rsum (map (fun c' => if agree_off M N ps c c' then overlap (psi c) (times (el (spins_at c ps ++ spins_at c' ps)) (psi c')) else 0) all)) all)
   / rsum (map (fun c => overlap (psi c) (psi c)) all))%R.
