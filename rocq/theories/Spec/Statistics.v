(** Independent samples of a finite distribution. *)
From Coq Require Import List Reals.
Import ListNotations.

Section Distribution.
  Context {A : Type}.
  Variables (outcomes : list A) (w : A -> R).
  Definition average (f : A -> R) : R := fold_right Rplus 0%R (map (fun a => w a * f a)%R outcomes).
  Definition distribution : Prop := average (fun _ => 1%R) = 1%R.
  (** the mean of f over lists of n samples drawn one after the other, each from the distribution *)
  Fixpoint draws (n : nat) (f : list A -> R) : R :=
    match n with
    | O => f []
    | S n => average (fun a => draws n (fun l => f (a :: l)))
    end.
  Definition uncorrelated (f g : A -> R) : Prop := average (fun a => f a * g a)%R = (average f * average g)%R.
End Distribution.
(** arithmetic mean *)
Definition arithmetic_mean (l : list R) : R := (fold_right Rplus 0 l / INR (length l))%R.
