(** The matrix product routine. *)
From Coq Require Import List Bool Arith Lia Permutation.
From Verif Require Import Base.Outcome Base.SMap Model.Symmetry Model.Edge Model.Core Model.Contract Spec.Contract Proof.ElemFacts Proof.SumFacts.
Import ListNotations.

Section Gemm.
  Context {R : Type} {RR : Scalar R}.

  Definition write_all (ws : list (nat * R)) (c : list R) : res (list R) :=
    foldM (fun c w => get_or_ub (update c (fst w) (snd w))) ws c.
  Lemma write_all_ok : forall ws c, (forall w, In w ws -> fst w < length c) -> NoDup (map fst ws) ->
    exists c', write_all ws c = Ok c' /\ length c' = length c /\ (forall a v, In (a, v) ws -> nth_error c' a = Some v) /\
      (forall j, ~ In j (map fst ws) -> nth_error c' j = nth_error c j).
  Proof.
    induction ws as [|[a v] ws IH]; intros c Hb Hn.
    - exists c. split; [reflexivity|]. split; [reflexivity|]. split; [intros a v []|auto].
    - destruct (update_some c a v) as [c1 E1]; [apply (Hb (a, v)); now left|]. pose proof (update_length _ _ _ _ E1) as HL.
      inversion Hn as [|? ? Hnot Hn']; subst. destruct (IH c1) as [c' [E [L [P1 P2]]]]; auto.
      { intros w Hw. rewrite HL. apply Hb. now right. }
      exists c'. unfold write_all in *. cbn [foldM fst snd]. rewrite E1. cbn [get_or_ub bind]. rewrite E. split; [reflexivity|]. split; [congruence|].
      split.
      + intros a' v' [Hw|Hw]; [injection Hw as <- <-|now apply P1]. rewrite P2 by exact Hnot. exact (update_same _ _ _ _ E1).
      + intros j Hj. cbn [map fst] in Hj. rewrite P2 by (intro; apply Hj; now right). apply (update_other _ _ _ _ _ E1). intros ->. apply Hj. now left.
  Qed.
  Lemma foldM_flat : forall A B C (f : B -> A -> res B) (g : C -> list A) l b,
    foldM (fun b x => foldM f (g x) b) l b = foldM f (flat_map g l) b.
  Proof.
    induction l as [|x l IH]; intro b; cbn [foldM flat_map]; [reflexivity|]. rewrite foldM_app. destruct (foldM f (g x) b); cbn [bind]; auto.
  Qed.
  Lemma foldM_map : forall A B C (f : B -> A -> res B) (g : C -> A) l b, foldM f (map g l) b = foldM (fun b x => f b (g x)) l b.
  Proof. induction l as [|x l IH]; intro b; cbn [foldM map]; [reflexivity|]. destruct (f b (g x)); cbn [bind]; auto. Qed.
  Lemma foldM_ext : forall A B (f g : B -> A -> res B) l, (forall b x, In x l -> f b x = g b x) -> forall b, foldM f l b = foldM g l b.
  Proof.
    induction l as [|x l IH]; intros H b; cbn [foldM]; [reflexivity|]. rewrite H by (now left). destruct (g b x); cbn [bind]; auto.
    apply IH. intros; apply H; now right.
  Qed.

  Hypothesis EA : exact_arithmetic R.
  Lemma gemm_entry_ok : forall ta tb k a abase lda b bbase ldb i j (f g : nat -> R),
    (forall l, l < k -> nth_error a (abase + (if ta : bool then l + i * lda else i + l * lda)) = Some (f l)) ->
    (forall l, l < k -> nth_error b (bbase + (if tb : bool then j + l * ldb else l + j * ldb)) = Some (g l)) ->
    gemm_entry ta tb k a abase lda b bbase ldb i j = Ok (rsum (map (fun l => rmul (f l) (g l)) (seq 0 k))).
  Proof.
    intros ta tb k a abase lda b bbase ldb i j f g Hf Hg. unfold gemm_entry.
    rewrite <- (rsum_fold_0 EA).
    assert (H : forall l, In l (seq 0 k) -> l < k) by (intros l Hl; apply in_seq in Hl; lia). revert H. generalize (@rzero R RR).
    generalize (seq 0 k). intros ls z H. revert z. induction ls as [|l ls IH]; intro z; cbn [foldM fold_left]; [reflexivity|].
    rewrite Hf, Hg by (apply H; now left). cbn [get_or_ub bind]. apply IH. intros; apply H; now right.
  Qed.

  (** n columns of length m, written one after the other from cbase on *)
  Lemma gemm_ok : forall ta tb m n k alpha a abase lda b bbase ldb c cbase (V : nat -> nat -> R),
    (forall i j, i < m -> j < n -> gemm_entry ta tb k a abase lda b bbase ldb i j = Ok (V i j)) ->
    cbase + n * m <= length c ->
    exists c', gemm ta tb m n k alpha a abase lda b bbase ldb c cbase m = Ok c' /\ length c' = length c /\
      (forall i j, i < m -> j < n -> nth_error c' (cbase + i + j * m) = Some (rmul alpha (V i j))) /\
      (forall x, x < cbase \/ cbase + n * m <= x -> nth_error c' x = nth_error c x).
  Proof.
    intros ta tb m n k alpha a abase lda b bbase ldb c cbase V HV HL.
    set (ws := flat_map (fun j => map (fun i => (cbase + i + j * m, rmul alpha (V i j))) (seq 0 m)) (seq 0 n)).
    assert (Hin : forall x v, In (x, v) ws <-> exists i j, i < m /\ j < n /\ x = cbase + i + j * m /\ v = rmul alpha (V i j)).
    { intros x v. unfold ws. rewrite in_flat_map. split.
      - intros [j [Hj H]]. apply in_map_iff in H as [i [E Hi]]. injection E as <- <-. apply in_seq in Hi, Hj. exists i, j. repeat split; lia || auto.
      - intros [i [j [Hi [Hj [-> ->]]]]]. exists j. split; [apply in_seq; lia|]. apply in_map_iff. exists i. split; [reflexivity|apply in_seq; lia]. }
    assert (Hrange : forall i j, i < m -> j < n -> i + j * m < n * m).
    { intros i j Hi Hj. assert (Datatypes.S j * m <= n * m) by (apply Nat.mul_le_mono_r; lia). simpl in *. lia. }
    destruct (write_all_ok ws c) as [c' [E [L [P1 P2]]]].
    - intros [x v] Hw. apply Hin in Hw as [i [j [Hi [Hj [-> _]]]]]. cbn [fst]. specialize (Hrange i j Hi Hj). lia.
    - unfold ws. rewrite flat_map_concat_map, concat_map, map_map.
      rewrite (map_ext _ (fun j => map (fun i => cbase + i + j * m) (seq 0 m))) by (intro j; rewrite map_map; reflexivity).
      rewrite <- flat_map_concat_map. apply NoDup_flat_map.
      + apply seq_NoDup.
      + intros j _. apply NoDup_map_inj; [apply seq_NoDup|]. intros; lia.
      + intros j1 j2 z _ _ H1 H2. apply in_map_iff in H1 as [i1 [<- H1]]. apply in_map_iff in H2 as [i2 [E H2]]. apply in_seq in H1, H2.
        assert (K : j1 * m + i1 = j2 * m + i2) by lia.
        destruct (Nat.lt_trichotomy j1 j2) as [D|[D|D]]; auto; exfalso.
        * assert (Datatypes.S j1 * m <= j2 * m) by (apply Nat.mul_le_mono_r; lia). simpl in *. lia.
        * assert (Datatypes.S j2 * m <= j1 * m) by (apply Nat.mul_le_mono_r; lia). simpl in *. lia.
    - exists c'. split.
      + unfold gemm. rewrite <- E. unfold write_all, ws. rewrite <- foldM_flat. apply foldM_ext. intros c0 j Hj. apply in_seq in Hj.
        rewrite foldM_map. apply foldM_ext. intros c1 i Hi. apply in_seq in Hi. rewrite HV by lia. reflexivity.
      + split; [exact L|]. split.
        * intros i j Hi Hj. apply P1. apply Hin. eauto 8.
        * intros x Hx. apply P2. intro Hc. apply in_map_iff in Hc as [[x' v] [E' Hc]]. cbn [fst] in E'. subst x'.
          apply Hin in Hc as [i [j [Hi [Hj [-> _]]]]]. specialize (Hrange i j Hi Hj). lia.
  Qed.
End Gemm.
