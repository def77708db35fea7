(** What svd is asked for, and what LAPACK's xGESVD promises. *)
From Coq Require Import List Bool Arith.
From Verif Require Import Base.Outcome Base.SMap Model.Symmetry Model.Edge Model.Core Spec.Relabel Spec.Contract Spec.Matrix Spec.Lapack Spec.Truncate Proof.CoreFacts Proof.ElemFacts.
Import ListNotations.

Section Legs.
  Context {S R : Type}.
  (** the given names are edges of U, the others of V *)
  Definition u_legs (free : list nat) (t : tensor S R) : list nat := filter (fun n => member n free) (t_names t).
  Definition v_legs (free : list nat) (t : tensor S R) : list nat := filter (fun n => negb (member n free)) (t_names t).
End Legs.

Definition associative_product (R : Type) {RR : Scalar R} : Prop := forall x y z : R, rmul (rmul x y) z = rmul x (rmul y z).

Section Gesvd.
  Context {R V : Type} {RR : Scalar R}.
  (** real numbers among the scalars; their zero and order *)
  Variables (of_real : V -> R) (vzero : V) (greater : V -> V -> bool).

  (** The sizes are right whatever happens; if the call reports success, A = U diag(s) VT with orthonormal columns and rows and with
      s descending and not negative.  Matrices are stored column by column *)
  Record svd_sound (gesvd : nat -> nat -> list R -> bool * (list V * list R * list R)) : Prop := {
    ss_size : forall m n A ok s U VT, 0 < m -> 0 < n -> length A = m * n -> gesvd m n A = (ok, (s, U, VT)) ->
      length s = Nat.min m n /\ length U = m * Nat.min m n /\ length VT = Nat.min m n * n;
    ss_ok : forall m n A s U VT, 0 < m -> 0 < n -> length A = m * n -> gesvd m n A = (true, (s, U, VT)) -> let k := Nat.min m n in
      (forall i j, i < m -> j < n ->
         by_columns m A i j = rsum (map (fun l => rmul (rmul (by_columns m U i l) (of_real (nth l s vzero))) (by_columns k VT l j)) (seq 0 k))) /\
      orthonormal_columns m k (by_columns m U) /\ orthonormal_rows k n (by_columns k VT) /\
      descending greater s /\ forall x, In x s -> greater vzero x = false }.

  (** the singular values as scalars, for multiplying an edge *)
  Definition as_scalars {S : Type} (sing : list (S * list V)) : list (S * list R) := map (fun sl => (fst sl, map of_real (snd sl))) sing.

  Definition svd_never_fails (gesvd : nat -> nat -> list R -> bool * (list V * list R * list R)) : Prop :=
    forall m n A, length A = m * n -> fst (gesvd m n A) = true.
End Gesvd.

(** X' is X with its edge c shortened: charge s keeps its first r s indices, and disappears when there are none *)
Section Shortened.
  Context {S R : Type} {SS : Sym S} {RR : Scalar R}.
  Record shortened (X X' : tensor S R) (c : nat) (r : S -> nat) : Prop := {
    sh_wf : wf_tensor X';
    sh_names : t_names X' = t_names X;
    sh_arrows : map earrow (t_edges X') = map earrow (t_edges X);
    sh_common : forall s d, In (s, d) (emap (edge_named (legs_of X') c)) <-> 0 < d /\ d = r s /\ exists d0, In (s, d0) (emap (edge_named (legs_of X) c));
    sh_others : forall n s d, In n (t_names X) -> n <> c -> In (s, d) (emap (edge_named (legs_of X') n)) -> In (s, d) (emap (edge_named (legs_of X) n));
    sh_points : forall pos pt, assigns pos (t_names X) pt -> (valid_pt (t_core X') pt <-> valid_pt (t_core X) pt /\ snd (coord pos c) < r (fst (coord pos c)));
    sh_elements : forall pos pt, assigns pos (t_names X) pt -> valid_pt (t_core X') pt -> const_at X' pos = const_at X pos }.
End Shortened.
