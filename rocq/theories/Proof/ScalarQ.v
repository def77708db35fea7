(** Rational scalars and a solver of two equations, used only for concrete examples. *)
From Coq Require Import List Bool Arith ZArith QArith Qabs Qcanon Qround Lia.
From Verif Require Import Model.Core Model.Exponential Spec.Contract Spec.Matrix.
Import ListNotations.
Local Open Scope nat_scope.

#[global] Instance Scalar_Q : Scalar Qc :=
  { rzero := 0%Qc; rone := 1%Qc; radd := Qcplus; rmul := Qcmult; ropp := Qcopp; rsub := Qcminus; rdiv := Qcdiv; rconj := fun x => x }.
Definition q_int (z : Z) : Qc := Q2Qc (inject_Z z).
(** logarithm of numbers at least 1 *)
#[global] Instance ExpScalar_Q : ExpScalar Qc :=
  { of_int := q_int; real := Q; real_zero := 0%Q; rabs := fun x => Qabs.Qabs (this x); real_lt := fun x y => negb (Qle_bool y x);
    trunc_log2 := fun x => if Qeq_bool x 0 then None else Some (Z.log2 (Qfloor x)) }.

Lemma q_int_nz : forall d, d <> 0%Z -> q_int d <> 0%Qc.
Proof.
  intros d Hd E. apply (f_equal this) in E. unfold q_int, Q2Qc in E. cbn [this] in E.
  assert (Qeq (inject_Z d) 0) as H. { rewrite <- (Qred_correct (inject_Z d)), E. reflexivity. }
  unfold Qeq in H. cbn in H. lia.
Qed.
Lemma exact_Q : exact_field Qc q_int.
Proof.
  constructor.
  - constructor; intros; cbn; ring.
  - intros; cbn; ring.
  - intros; cbn; ring.
  - intros; cbn; ring.
  - apply Qc_is_canon. reflexivity.
  - intros a b. cbn. apply Qc_is_canon. unfold q_int, Qcmult, Q2Qc. cbn [this]. rewrite !Qred_correct. rewrite inject_Z_mult. reflexivity.
  - intros x d Hd. pose proof (q_int_nz d Hd). cbn. field. assumption.
  - intros x d Hd. pose proof (q_int_nz d Hd). cbn. field. assumption.
Qed.

(** Cramer's rule; matrices by columns *)
Definition cramer (n nrhs : nat) (A B : list Qc) : bool * list Qc :=
  match A with
  | [a; c; b; d] =>
      let det := (a * d - b * c)%Qc in
      (true, flat_map (fun k => let u := nth (k * 2) B 0%Qc in let v := nth (k * 2 + 1) B 0%Qc in [((d * u - b * v) / det)%Qc; ((a * v - c * u) / det)%Qc]) (seq 0 nrhs))
  | _ => (false, B)
  end.
Lemma nth_pairs : forall (f g : nat -> Qc) m k c, c < m ->
  nth (c * 2) (flat_map (fun i => [f i; g i]) (seq k m)) 0%Qc = f (k + c)%nat /\ nth (c * 2 + 1) (flat_map (fun i => [f i; g i]) (seq k m)) 0%Qc = g (k + c)%nat.
Proof.
  intros f g m. induction m as [|m IH]; intros k c Hc; [lia|]. destruct c as [|c].
  - rewrite Nat.add_0_r. split; reflexivity.
  - destruct (IH (Datatypes.S k) c) as [H1 H2]; [lia|]. replace (k + Datatypes.S c)%nat with (Datatypes.S k + c)%nat by lia. rewrite <- H1, <- H2. split; reflexivity.
Qed.
Lemma cramer_solves : solves cramer 2.
Proof.
  intros nrhs A B LA LB [V [HV _]].
  destruct A as [|a [|c [|b [|d [|? ?]]]]]; try discriminate LA. cbn [cramer snd]. set (det := (a * d - b * c)%Qc).
  assert (Hdet : det <> 0%Qc).
  { intro H0. pose proof (HV 0 0 ltac:(lia) ltac:(lia)) as E1. pose proof (HV 0 1 ltac:(lia) ltac:(lia)) as E2. pose proof (HV 1 0 ltac:(lia) ltac:(lia)) as E3.
    pose proof (HV 1 1 ltac:(lia) ltac:(lia)) as E4. unfold mmul, rsum, by_columns, ident in E1, E2, E3, E4.
    cbn [seq map fold_right Nat.mul Nat.add Nat.eqb nth rzero rone radd rmul Scalar_Q] in E1, E2, E3, E4.
    set (v00 := V 0 0) in *. set (v01 := V 0 1) in *. set (v10 := V 1 0) in *. set (v11 := V 1 1) in *.
    assert (H : ((v00 * v11 - v01 * v10) * det = (v00 * a + (v01 * c + 0)) * (v10 * b + (v11 * d + 0)) - (v00 * b + (v01 * d + 0)) * (v10 * a + (v11 * c + 0)))%Qc) by (unfold det; ring).
    rewrite E1, E2, E3, E4, H0 in H. ring_simplify in H. discriminate H. }
  split.
  - clear. induction nrhs as [|m IH] using nat_ind; [reflexivity|]. rewrite seq_S, flat_map_app, app_length, IH. cbn. lia.
  - intros i k Hi Hk. cbv zeta.
    destruct (nth_pairs (fun k => ((d * nth (k * 2) B 0 - b * nth (k * 2 + 1) B 0) / det)%Qc) (fun k => ((a * nth (k * 2 + 1) B 0 - c * nth (k * 2) B 0) / det)%Qc) nrhs 0 k Hk) as [P1 P2].
    cbv beta in P1, P2. rewrite Nat.add_0_l in P1, P2. unfold rsum, by_columns. cbn [seq map fold_right]. change (@rzero Qc Scalar_Q) with (Q2Qc 0). rewrite !Nat.add_0_l, (Nat.add_comm 1 (k * 2)), P1, P2.
    destruct i as [|[|i]]; [| |lia]; cbn [Nat.mul Nat.add nth rzero radd rmul Scalar_Q]; unfold det in *.
    + field. exact Hdet.
    + rewrite (Nat.add_comm 1 (k * 2)) || idtac. replace (Datatypes.S (k * 2)) with (k * 2 + 1)%nat by lia. field. exact Hdet.
Qed.
