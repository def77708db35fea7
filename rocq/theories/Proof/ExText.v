(** 64 bit integers as printed scalars, for the examples. *)
From Coq Require Import String.
From Coq Require Import List Bool Arith ZArith Lia Decimal DecimalZ DecimalPos DecimalFacts.
From Coq Require Import List.
From Verif Require Import Base.Outcome Base.SMap Model.Symmetry Model.Edge Model.Core Model.Names Model.Text Spec.Binary Spec.Text.
From Verif Require Import Proof.TextFacts Proof.TextTensor Proof.TextKinds Proof.TextNames Proof.ExBinary.
Import ListNotations.

#[global] Instance ScalarText_Z : ScalarText Z := {| print_scalar := print_integer; scan_scalar := fun old => scan_number (to_signed 64) old |}.
#[global] Instance RealText_Z : RealText Z := {| real_text := ScalarText_Z; real_zero := 0%Z; is_zero := fun z => Z.eqb z 0; is_positive := fun z => Z.ltb 0 z |}.
Lemma stuck_Z : forall x : Z, stuck (scan_scalar x).
Proof. intro x. apply scan_number_stuck. Qed.
Lemma scan_Z_back : forall old z, int64 z -> scans_before (fun c => is_digit c = false) (scan_number (to_signed 64) old) (print_integer z) z.
Proof. intros old z H. apply scan_number_back. now apply to_signed_ok. Qed.
Lemma behind_plus : forall z c r, (0 < z)%Z -> take_integer (43 :: print_integer z ++ c :: r) = take_integer (print_integer z ++ c :: r).
Proof.
  intros z c r H. destruct (print_integer_start z) as [d [t [E [K|[_ K]]]]]; [|lia]. unfold take_integer.
  change (Nat.eqb 43 minus) with false. change (Nat.eqb 43 plus) with true. cbn match. rewrite E. cbn [app].
  apply is_digit_range in K. destruct (Nat.eqb_spec d minus) as [->|_]; [unfold minus in K; lia|]. destruct (Nat.eqb_spec d plus) as [->|_]; [unfold plus in K; lia|]. reflexivity.
Qed.
#[global] Instance RealTextLaws_Z : RealTextLaws Z int64.
Proof.
  split.
  - intros x _. destruct (integer_start x) as [c [r [E [H _]]]]. exists c, r. split; [exact E|exact H].
  - intros x _ H1 H2. cbn [is_zero is_positive RealText_Z] in *. apply Z.eqb_neq in H1. apply Z.ltb_ge in H2. cbn [print_scalar real_text RealText_Z ScalarText_Z].
    assert (N : (x < 0)%Z) by lia. destruct x as [|p|p]; try lia. unfold print_integer. cbn [Z.to_int]. eexists. reflexivity.
  - intros x Hx. exists x. split; [reflexivity|]. split; [reflexivity|]. split; [reflexivity|]. intro junk. cbn [scan_scalar print_scalar real_text RealText_Z ScalarText_Z]. split.
    + eapply scans_weaken; [|apply scan_Z_back; exact Hx]. cbn. intros c H. intuition subst; reflexivity.
    + cbn [is_positive RealText_Z]. intros Hp c r ->. apply Z.ltb_lt in Hp. pose proof (scan_Z_back junk x Hx 105 r eq_refl) as E.
      unfold scan_number in *. cbn [good ahead at_eof failed negb andb left_over app] in *. change (skip_spaces (43 :: ?l)) with (43 :: l). cbn match. rewrite behind_plus by exact Hp.
      rewrite take_integer_back by reflexivity. rewrite to_signed_ok by exact Hx. reflexivity.
  - reflexivity.
  - exists 0%Z. split; [reflexivity|]. intros junk c r H. cbn [scan_scalar real_text RealText_Z ScalarText_Z]. apply (scan_Z_back junk 0%Z); [unfold int64; lia|]. destruct H as [-> | ->]; reflexivity.
Qed.
Lemma readable_Z : forall z, int64 z -> readable z.
Proof.
  intros z H. unfold readable. split; [destruct (integer_start z) as [c [r [E [K _]]]]; exists c, r; split; [exact E|exact K]|].
  exists z. split; [reflexivity|]. intro junk. eapply scans_weaken; [|apply scan_Z_back; exact H]. cbn. intros c [-> | ->]; reflexivity.
Qed.

Section Check.
  Context {S : Type} {SS : Sym S}.
  Variable okb : S -> bool.
  Definition printableb (t : tensor S Z) : bool :=
    forallb (fun e => forallb (fun sd => okb (fst sd) && fitsb (snd sd)) (emap e)) (t_edges t) && forallb (fun kb => forallb int64b (snd kb)) (t_blocks t).
  Lemma printableb_ok : forall ok : S -> Prop, (forall s, okb s = true -> ok s) -> forall t, printableb t = true -> printable ok t.
  Proof.
    intros ok Hok t H. unfold printableb in H. rewrite !andb_true_iff in H. destruct H as [H1 H2]. rewrite forallb_forall in H1, H2. split.
    - intros e s d He Hsd. specialize (H1 e He). rewrite forallb_forall in H1. specialize (H1 _ Hsd). cbn [fst snd] in H1. apply andb_true_iff in H1 as [A B]. split; [now apply Hok|now apply fitsb_ok].
    - intros k b x Hkb Hx. specialize (H2 _ Hkb). rewrite forallb_forall in H2. specialize (H2 x Hx). apply readable_Z. unfold int64b in H2. apply andb_true_iff in H2 as [A B].
      apply Z.leb_le in A. apply Z.ltb_lt in B. split; assumption.
  Qed.
End Check.
Definition readable_namesb (texts : list text) : bool :=
  forallb (fun t => Nat.leb (length t) 255 && forallb (fun c => Nat.leb 33 c && Nat.leb c 126 && negb (Nat.eqb c 44) && negb (Nat.eqb c 91) && negb (Nat.eqb c 93)) t) texts
  && match texts with [[]] => false | _ => true end.
Lemma readable_namesb_ok : forall texts, readable_namesb texts = true -> readable_names texts.
Proof.
  intros texts H. apply andb_true_iff in H as [H1 H2]. rewrite forallb_forall in H1. split; [|intros ->; discriminate].
  intros t Ht. specialize (H1 t Ht). apply andb_true_iff in H1 as [A B]. apply Nat.leb_le in A. split; [|exact A]. rewrite forallb_forall in B.
  intros c Hc. specialize (B c Hc). rewrite !andb_true_iff, !negb_true_iff in B. destruct B as [[[[B1 B2] B3] B4] B5].
  apply Nat.leb_le in B1, B2. apply Nat.eqb_neq in B3, B4, B5. repeat split; assumption.
Qed.
