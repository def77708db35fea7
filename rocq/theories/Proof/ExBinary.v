(** 64 bit integers as scalars, and a check for storable tensors, for the examples. *)
From Coq Require Import List Bool Arith ZArith Lia.
From Verif Require Import Base.Outcome Base.SMap Model.Symmetry Model.Edge Model.Core Model.Names Model.Binary Spec.Binary Proof.BinaryFacts Proof.BinaryTensor.
Import ListNotations.

#[global] Instance ScalarIO_Z : ScalarIO Z := {| width := 8; scalar_bytes := little 8; scalar_of := signed 8 |}.
Definition int64 (z : Z) : Prop := (- 2 ^ 63 <= z < 2 ^ 63)%Z.
#[global] Instance ScalarLaws_Z : ScalarLaws Z int64.
Proof. split; [intros; apply little_length|]. intros x H. apply signed_little; [lia|exact H]. Qed.

Definition fitsb (n : nat) : bool := (Z.of_nat n <? 2 ^ 64)%Z.
Lemma fitsb_ok : forall n, fitsb n = true -> fits n.
Proof. intros n H. now apply Z.ltb_lt. Qed.
Definition int64b (z : Z) : bool := ((- 2 ^ 63 <=? z) && (z <? 2 ^ 63))%Z.
Section Check.
  Context {S : Type} {SS : Sym S}.
  Variable okb : S -> bool.
  Definition storableb (t : tensor S Z) : bool :=
    (fitsb (length (t_names t)) && forallb (fun n => (Z.of_nat n <? 2 ^ 31)%Z) (t_names t)) && fitsb (length (t_edges t))
    && forallb (fun e => fitsb (length (emap e)) && forallb (fun sd => okb (fst sd) && fitsb (snd sd)) (emap e)) (t_edges t)
    && fitsb (length (t_blocks t))
    && forallb (fun kb => fitsb (length (fst kb)) && forallb okb (fst kb) && fitsb (length (snd kb)) && forallb int64b (snd kb)) (t_blocks t).
  Definition fast_ok (l : list name) : Prop := fits (length l) /\ forall n, In n l -> (Z.of_nat n < 2 ^ 31)%Z.
  Lemma storableb_ok : forall ok : S -> Prop, (forall s, okb s = true -> ok s) -> forall t, storableb t = true -> storable ok int64 fast_ok t.
  Proof.
    intros ok Hok t H. unfold storableb in H. rewrite !andb_true_iff in H. destruct H as [[[[[H1 H2] H3] H4] H5] H6].
    rewrite forallb_forall in H2, H4, H6. constructor.
    - split; [now apply fitsb_ok|]. intros n Hn. apply Z.ltb_lt. now apply H2.
    - now apply fitsb_ok.
    - intros e He. specialize (H4 e He). apply andb_true_iff in H4 as [A B]. rewrite forallb_forall in B. split; [now apply fitsb_ok|].
      intros s d Hsd. specialize (B _ Hsd). cbn in B. apply andb_true_iff in B as [B1 B2]. split; [now apply Hok|now apply fitsb_ok].
    - now apply fitsb_ok.
    - intros k b Hkb. specialize (H6 _ Hkb). cbn [fst snd] in H6. rewrite !andb_true_iff in H6. destruct H6 as [[[A B] C] D]. rewrite forallb_forall in B, D.
      repeat split; try now apply fitsb_ok. + intros. apply Hok. now apply B.
      + specialize (D _ H). unfold int64b in D. apply andb_true_iff in D as [D _]. now apply Z.leb_le.
      + specialize (D _ H). unfold int64b in D. apply andb_true_iff in D as [_ D]. now apply Z.ltb_lt.
  Qed.
End Check.

(** hypotheses of the round trip for the plain case, one number per edge *)
Definition int32b (z : Z) : bool := ((- 2 ^ 31 <=? z) && (z <? 2 ^ 31))%Z.
Lemma int32b_ok : forall z, int32b z = true -> fits_int z.
Proof. intros z H. apply andb_true_iff in H as [H1 H2]. apply Z.leb_le in H1. apply Z.ltb_lt in H2. split; assumption. Qed.
