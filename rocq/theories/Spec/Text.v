(** What it means that text can be read back. *)
From Coq Require Import List Bool Arith ZArith.
From Verif Require Import Base.Outcome Base.SMap Model.Symmetry Model.Edge Model.Core Model.Names Model.Text Spec.Binary.
Import ListNotations.

(** a good stream with this text ahead *)
Definition ahead (t : text) : input := mkIn t false false.
(** reading the text t gives a and stops just behind it, provided the next character is one of those in [next] *)
Definition scans_before {A} (next : nat -> Prop) (rd : scanner A) (t : text) (a : A) : Prop :=
  forall c r, next c -> rd (ahead (t ++ c :: r)) = Ok (a, ahead (c :: r)).
(** the same whatever follows *)
Definition scans {A} (rd : scanner A) (t : text) (a : A) : Prop := forall r, rd (ahead (t ++ r)) = Ok (a, ahead r).

(** names of printable characters other than space and separators *)
Definition separator_free (t : text) : Prop := forall c, In c t -> 33 <= c <= 126 /\ c <> 44 /\ c <> 91 /\ c <> 93.

Section Scalars.
  Context {R : Type} {RT : ScalarText R}.
  (** the text of x can be read where a list goes on or ends, and the value read has the same text.  (A floating point number printed with six
      digits is not read back exactly.) *)
  Definition readable (x : R) : Prop :=
    (exists c r, print_scalar x = c :: r /\ c <> 93) /\
    exists y, print_scalar y = print_scalar x /\ forall junk, scans_before (fun c => c = 44 \/ c = 93) (scan_scalar junk) (print_scalar x) y.
  Definition same_text (x y : R) : Prop := print_scalar x = print_scalar y.
End Scalars.

Section Tensors.
  Context {S R : Type} {SS : Sym S} {RT : ScalarText R}.
  (** equal up to what is lost by printing the elements *)
  Definition shown_alike (t t' : tensor S R) : Prop :=
    t_names t = t_names t' /\ Forall2 same_edge (t_edges t) (t_edges t') /\
    Forall2 (fun kb kb' => fst kb = fst kb' /\ Forall2 same_text (snd kb) (snd kb')) (t_blocks t) (t_blocks t').
  (** dimensions are 64 bit numbers, charges are in [ok], elements are readable *)
  Definition printable (ok : S -> Prop) (t : tensor S R) : Prop :=
    (forall e s d, In e (t_edges t) -> In (s, d) (emap e) -> ok s /\ fits d) /\
    (forall k b x, In (k, b) (t_blocks t) -> In x b -> readable x).
End Tensors.

(** names and their strings: every name of the list has one, and the strings lead back to the names *)
Definition interned (text_of : name -> res text) (intern : list text -> list name) (names : list name) (texts : list text) : Prop :=
  mapM text_of names = Ok texts /\ intern texts = names.
(** strings that the reader can tell apart from nothing and has room for *)
Definition readable_names (texts : list text) : Prop :=
  (forall t, In t texts -> separator_free t /\ length t <= 255) /\ texts <> [[]].

(** real numbers: the codec reads what it prints at the characters that can follow, positive numbers also behind a plus sign; a negative number starts with
    a minus sign, and the number read is zero or positive if the one printed was *)
Class RealTextLaws (F : Type) {FT : RealText F} (ok : F -> Prop) : Prop := {
  real_start : forall x, ok x -> exists c r, print_scalar x = c :: r /\ c <> 93;
  real_negative : forall x, ok x -> is_zero x = false -> is_positive x = false -> exists r, print_scalar x = 45 :: r;
  real_back : forall x, ok x -> exists y, print_scalar y = print_scalar x /\ is_zero y = is_zero x /\ is_positive y = is_positive x /\
    forall junk, scans_before (fun c => c = 44 \/ c = 93 \/ c = 43 \/ c = 45 \/ c = 105) (scan_scalar junk) (print_scalar x) y /\
                 (is_positive x = true -> scans_before (fun c => c = 105) (scan_scalar junk) (43 :: print_scalar x) y);
  real_zero_is : is_zero real_zero = true;
  real_zero_back : exists z, is_zero z = true /\ forall junk, scans_before (fun c => c = 44 \/ c = 93) (scan_scalar junk) [48] z }.
