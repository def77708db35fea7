(** Strips of three lines: shapes and values. *)
From Coq Require Import String Ascii List Bool Arith Lia Permutation Ring.
From Verif Require Import Base.Outcome Base.SMap Model.Symmetry Model.Edge Model.Core Model.EdgeOperator Model.Contract Model.Misc Model.Qr Model.Svd Model.Auxiliaries
  Spec.Blocks Spec.Relabel Spec.Contract Spec.Plain Spec.Lapack Spec.Grid Spec.Factor Spec.Truncate Spec.Spectrum Spec.Svd Proof.SumFacts Proof.CoreFacts Proof.ElemFacts Proof.PlainFacts Proof.PlainTools Proof.SumBonds Proof.LineMath Proof.LineTensor.
Import ListNotations.

(** a strip is passed in the direction of its lines or backwards; backwards, everything is turned by 180 degrees *)
Definition gup (F : frame) (b : bool) : dir := if b then fdown F else fup F.
Definition gdown (F : frame) (b : bool) : dir := if b then fup F else fdown F.
Definition gleft (F : frame) (b : bool) : dir := if b then fright F else fleft F.
Definition gright (F : frame) (b : bool) : dir := if b then fleft F else fright F.
Definition g1 (b : bool) : nat := if b then 3 else 1.
Definition g3 (b : bool) : nat := if b then 1 else 3.

Section StripTensor.
  Context {R : Type} {RR : Scalar R}.
  Notation tens := (tensor unit R).
  Implicit Types t : tens.
  Hypotheses (EA : exact_arithmetic R) (MA : associative_product R) (MD : distributive_product R).
  Variables (E : @env R) (J : internal).
  Hypothesis HJ : NoDup [i_contract_0 J; i_contract_1 J; i_contract_2 J].
  Notation "x *r y" := (rmul x y) (at level 40, left associativity).
  Add Ring scalars2 : (semi_ring EA MA MD).

  Definition gk (F : frame) (b : bool) (u d l r : option nat) : slots := [(nm (gup F b) 0, u); (nm (gdown F b) 0, d); (nm (gleft F b) 0, l); (nm (gright F b) 0, r)].
  Definition gf (F : frame) (b : bool) (t : tens) (u d l r : nat) : R := value t [(nm (gup F b) 0, u); (nm (gdown F b) 0, d); (nm (gleft F b) 0, l); (nm (gright F b) 0, r)].
  Definition tk (F : frame) (b : bool) (x y z : option nat) : slots := [(nm (gright F b) (g1 b), x); (nm (gright F b) 2, y); (nm (gright F b) (g3 b), z)].
  Definition tf (F : frame) (b : bool) (t : tens) (x y z : nat) : R := value t [(nm (gright F b) (g1 b), x); (nm (gright F b) 2, y); (nm (gright F b) (g3 b), z)].
  Definition hk (F : frame) (b : bool) (x y z d : option nat) : slots := [(nm (gright F b) (g1 b), x); (nm (gright F b) 2, y); (nm (gright F b) (g3 b), z); (nm (gdown F b) 0, d)].
  Definition hf (F : frame) (b : bool) (t : tens) (x y z d : nat) : R := value t [(nm (gright F b) (g1 b), x); (nm (gright F b) 2, y); (nm (gright F b) (g3 b), z); (nm (gdown F b) 0, d)].

  Ltac cases F b := destruct F, b.
  Ltac shape := cbn; repeat constructor.
  Ltac look := cbn; repeat (constructor; [first [right; reflexivity | left; reflexivity | left; assumption]|]); try constructor.
  Ltac range F b := apply in_slots_all; cases F b; cbn; repeat constructor; cbn; auto.

  (** ** the steps, the result renamed *)
  Lemma step_1_ok : forall F b t s x y z d x', has t (tk F b x y z) -> has s (gk F b None d x x') ->
    exists t', step_1 E J (gleft F b) (gright F b) (g1 b) t s = Ok t' /\ has t' (hk F b x' y z d) /\
      forall i j k w, i < size x' -> j < size y -> k < size z -> w < size d -> hf F b t' i j k w = Sum (size x) (fun i0 => tf F b t i0 j k *r gf F b s 0 w i0 i).
  Proof.
    intros F b t s x y z d x' Ht Hs. unfold step_1.
    destruct (contract_keys EA E J HJ _ _ _ _ [(nm (gright F b) (g1 b), nm (gleft F b) 0)] Ht Hs) as [r [R1 [R2 R3]]]; try (now cases F b).
    { cases F b; shape. }
    rewrite R1. cbn [bind]. set (dict := [(nm (gright F b) 0, nm (gright F b) (g1 b))]).
    set (K := [(nm (gright F b) 2, y); (nm (gright F b) (g3 b), z); (nm (gdown F b) 0, d); (nm (gright F b) 0, x')] : slots).
    assert (HK : has r K) by (apply (has_same _ _ _ R2); cases F b; shape).
    assert (N : nodupb (map (rename_one dict) (keys K)) = true) by (now cases F b).
    exists (edge_rename r dict). split; [reflexivity|]. split; [apply (has_same _ _ _ (rename_keys_has r K dict HK N)); cases F b; shape|].
    intros i j k w Hi Hj Hk Hw. unfold hf.
    rewrite (rename_keys_value r K dict _ [(nm (gright F b) 2, j); (nm (gright F b) (g3 b), k); (nm (gdown F b) 0, w); (nm (gright F b) 0, i)] HK N) by (cases F b; look).
    rewrite R3 by range F b. cbn [Sums map]. replace (slot _ _) with x by (cases F b; reflexivity). apply Sum_ext. intros i0 _. unfold product, tf, gf. f_equal; [apply (value_keys _ _ _ _ Ht)|apply (value_keys _ _ _ _ Hs)]; cases F b; look.
  Qed.
  Lemma step_3_ok : forall F b t s c x y z d e y' z', has t (hk F b x y z d) -> has s (gk F b d e y y') -> has c (gk F b e None z z') ->
    exists t', step_3 E J (gleft F b) (gright F b) (gup F b) (gdown F b) (g3 b) t s c = Ok t' /\ has t' (tk F b x y' z') /\
      forall i j k, i < size x -> j < size y' -> k < size z' -> tf F b t' i j k = step3 (size z) (size e) (gf F b c) (step2 (size y) (size d) (gf F b s) (hf F b t)) i j k.
  Proof.
    intros F b t s c x y z d e y' z' Ht Hs Hc. unfold step_3.
    destruct (contract_keys EA E J HJ _ _ _ _ [(nm (gright F b) 2, nm (gleft F b) 0); (nm (gdown F b) 0, nm (gup F b) 0)] Ht Hs) as [r [R1 [R2 R3]]]; try (now cases F b).
    { cases F b; shape. }
    rewrite R1. cbn [bind]. set (dict := [(nm (gright F b) 0, nm (gright F b) 2)]).
    set (K := [(nm (gright F b) (g1 b), x); (nm (gright F b) (g3 b), z); (nm (gdown F b) 0, e); (nm (gright F b) 0, y')] : slots).
    assert (HK : has r K) by (apply (has_same _ _ _ R2); cases F b; shape).
    assert (N : nodupb (map (rename_one dict) (keys K)) = true) by (now cases F b).
    assert (HK' := rename_keys_has r K dict HK N).
    destruct (contract_keys EA E J HJ _ _ _ _ [(nm (gright F b) (g3 b), nm (gleft F b) 0); (nm (gdown F b) 0, nm (gup F b) 0)] HK' Hc) as [r2 [S1 [S2 S3]]]; try (now cases F b).
    { cases F b; shape. }
    rewrite S1. cbn [bind]. set (dict2 := [(nm (gright F b) 0, nm (gright F b) (g3 b))]).
    set (K2 := [(nm (gright F b) (g1 b), x); (nm (gright F b) 2, y'); (nm (gdown F b) 0, None); (nm (gright F b) 0, z')] : slots).
    assert (HK2 : has r2 K2) by (apply (has_same _ _ _ S2); cases F b; shape).
    assert (N2 : nodupb (map (rename_one dict2) (keys K2)) = true) by (now cases F b).
    exists (edge_rename r2 dict2). split; [reflexivity|]. split; [apply (has_same _ _ _ (rename_keys_has r2 K2 dict2 HK2 N2)); cases F b; shape|].
    intros i j k Hi Hj Hk. unfold tf.
    rewrite (rename_keys_value r2 K2 dict2 _ [(nm (gright F b) (g1 b), i); (nm (gright F b) 2, j); (nm (gdown F b) 0, 0); (nm (gright F b) 0, k)] HK2 N2) by (cases F b; look).
    rewrite S3 by range F b. cbn [Sums map]. replace (slot _ _) with z by (cases F b; reflexivity). replace (slot _ _) with e by (cases F b; reflexivity).
    unfold step3. apply Sum_ext. intros z0 Hz. apply Sum_ext. intros e0 He. unfold product. f_equal; [|unfold gf; apply (value_keys _ _ _ _ Hc); cases F b; look].
    rewrite (rename_keys_value r K dict _ [(nm (gright F b) (g1 b), i); (nm (gright F b) (g3 b), z0); (nm (gdown F b) 0, e0); (nm (gright F b) 0, j)] HK N) by (cases F b; look).
    rewrite R3 by range F b. cbn [Sums map]. replace (slot _ _) with y by (cases F b; reflexivity). replace (slot _ _) with d by (cases F b; reflexivity).
    unfold step2. apply Sum_ext. intros y0 _. apply Sum_ext. intros d0 _. unfold product, hf, gf. f_equal; [apply (value_keys _ _ _ _ Ht)|apply (value_keys _ _ _ _ Hs)]; cases F b; look.
  Qed.
  (** ** the steps, the site renamed *)
  Lemma first_ok : forall F b t s x y z d x', has t (tk F b x y z) -> has s (gk F b None d x x') ->
    exists t', contract E J t (edge_rename s [(nm (gright F b) 0, nm (gright F b) (g1 b))]) [(nm (gright F b) (g1 b), nm (gleft F b) 0)] = Ok t' /\ has t' (hk F b x' y z d) /\
      forall i j k w, i < size x' -> j < size y -> k < size z -> w < size d -> hf F b t' i j k w = Sum (size x) (fun i0 => tf F b t i0 j k *r gf F b s 0 w i0 i).
  Proof.
    intros F b t s x y z d x' Ht Hs. set (dict := [(nm (gright F b) 0, nm (gright F b) (g1 b))]).
    assert (N : nodupb (map (rename_one dict) (keys (gk F b None d x x'))) = true) by (now cases F b).
    destruct (contract_keys EA E J HJ _ _ _ _ [(nm (gright F b) (g1 b), nm (gleft F b) 0)] Ht (rename_keys_has s _ dict Hs N)) as [r [R1 [R2 R3]]]; try (now cases F b).
    { cases F b; shape. }
    exists r. split; [exact R1|]. split; [apply (has_same _ _ _ R2); cases F b; shape|]. intros i j k w Hi Hj Hk Hw. unfold hf. rewrite R3 by range F b.
    cbn [Sums map]. replace (slot _ _) with x by (cases F b; reflexivity). apply Sum_ext. intros i0 _. unfold product, tf, gf. f_equal; [apply (value_keys _ _ _ _ Ht)|apply (rename_keys_value _ _ _ _ _ Hs N)]; cases F b; look.
  Qed.
  Lemma middle_ok : forall F b t s x y z d e y', has t (hk F b x y z d) -> has s (gk F b d e y y') ->
    exists t', contract E J t (edge_rename s [(nm (gright F b) 0, nm (gright F b) 2)]) [(nm (gright F b) 2, nm (gleft F b) 0); (nm (gdown F b) 0, nm (gup F b) 0)] = Ok t' /\ has t' (hk F b x y' z e) /\
      forall i j k w, i < size x -> j < size y' -> k < size z -> w < size e -> hf F b t' i j k w = step2 (size y) (size d) (gf F b s) (hf F b t) i j k w.
  Proof.
    intros F b t s x y z d e y' Ht Hs. set (dict := [(nm (gright F b) 0, nm (gright F b) 2)]).
    assert (N : nodupb (map (rename_one dict) (keys (gk F b d e y y'))) = true) by (now cases F b).
    destruct (contract_keys EA E J HJ _ _ _ _ [(nm (gright F b) 2, nm (gleft F b) 0); (nm (gdown F b) 0, nm (gup F b) 0)] Ht (rename_keys_has s _ dict Hs N)) as [r [R1 [R2 R3]]]; try (now cases F b).
    { cases F b; shape. }
    exists r. split; [exact R1|]. split; [apply (has_same _ _ _ R2); cases F b; shape|]. intros i j k w Hi Hj Hk Hw. unfold hf at 1. rewrite R3 by range F b.
    cbn [Sums map]. replace (slot _ _) with y by (cases F b; reflexivity). replace (slot _ _) with d by (cases F b; reflexivity).
    unfold step2. apply Sum_ext. intros y0 _. apply Sum_ext. intros d0 _. unfold product, hf, gf. f_equal; [apply (value_keys _ _ _ _ Ht)|apply (rename_keys_value _ _ _ _ _ Hs N)]; cases F b; look.
  Qed.
  Lemma last_ok : forall F b t c x y z e z', has t (hk F b x y z e) -> has c (gk F b e None z z') ->
    exists t', contract E J t (edge_rename c [(nm (gright F b) 0, nm (gright F b) (g3 b))]) [(nm (gright F b) (g3 b), nm (gleft F b) 0); (nm (gdown F b) 0, nm (gup F b) 0)] = Ok t' /\ has t' (tk F b x y z') /\
      forall i j k, i < size x -> j < size y -> k < size z' -> tf F b t' i j k = step3 (size z) (size e) (gf F b c) (hf F b t) i j k.
  Proof.
    intros F b t c x y z e z' Ht Hs. set (dict := [(nm (gright F b) 0, nm (gright F b) (g3 b))]).
    assert (N : nodupb (map (rename_one dict) (keys (gk F b e None z z'))) = true) by (now cases F b).
    destruct (contract_keys EA E J HJ _ _ _ _ [(nm (gright F b) (g3 b), nm (gleft F b) 0); (nm (gdown F b) 0, nm (gup F b) 0)] Ht (rename_keys_has c _ dict Hs N)) as [r [R1 [R2 R3]]]; try (now cases F b).
    { cases F b; shape. }
    exists r. split; [exact R1|]. split; [apply (has_same _ _ _ R2); cases F b; shape|]. intros i j k Hi Hj Hk. unfold tf. rewrite R3 by range F b.
    cbn [Sums map]. replace (slot _ _) with z by (cases F b; reflexivity). replace (slot _ _) with e by (cases F b; reflexivity).
    unfold step3. apply Sum_ext. intros z0 _. apply Sum_ext. intros e0 _. unfold product, hf, gf. f_equal; [apply (value_keys _ _ _ _ Ht)|apply (rename_keys_value _ _ _ _ _ Hs N)]; cases F b; look.
  Qed.
  (** ** the two halves *)
  Lemma scalar_ok : forall t K a, has t K -> (forall n, slot K n = None) -> to_scalar t = Ok (value t a).
  Proof.
    intros t K a H HK. assert (Nn : t_names t = []).
    { destruct (t_names t) as [|n l] eqn:Q; [reflexivity|]. assert (I : In n (t_names t)) by (rewrite Q; now left). apply (has_in t K n H) in I. now rewrite HK in I. }
    destruct (RegroupFacts.plain_block Ns t (h_wf _ _ H) (h_block _ _ H)) as [key [data B]].
    destruct (RegroupFacts.plain_data Ns t (h_wf _ _ H) (h_block _ _ H) key data B) as [D1 D2]. rewrite Nn in D1, D2. cbn [map] in D1, D2.
    destruct (D2 [] [] eq_refl (Forall2_nil _)) as [v [V1 [V2 _]]]. unfold to_scalar. rewrite B. cbn in D1. destruct data as [|w [|w' data]]; cbn in D1; try lia.
    cbn in V1. injection V1 as <-. f_equal. unfold value, element. rewrite Nn. cbn [map]. now rewrite V2.
  Qed.
  Lemma close_ok : forall F t c x y z d, has t (hk F false x y z d) -> has c (hk F true z y x d) ->
    exists r, contract E J t c [(nm (fright F) 1, nm (fleft F) 1); (nm (fright F) 2, nm (fleft F) 2); (nm (fright F) 3, nm (fleft F) 3); (nm (fdown F) 0, nm (fup F) 0)] = Ok r /\
      to_scalar r = Ok (Sum (size x) (fun i => Sum (size y) (fun j => Sum (size z) (fun k => Sum (size d) (fun w => hf F false t i j k w *r hf F true c k j i w))))).
  Proof.
    intros F t c x y z d Ht Hc.
    destruct (contract_keys EA E J HJ _ _ _ _ [(nm (fright F) 1, nm (fleft F) 1); (nm (fright F) 2, nm (fleft F) 2); (nm (fright F) 3, nm (fleft F) 3); (nm (fdown F) 0, nm (fup F) 0)] Ht Hc) as [r [R1 [R2 R3]]]; try (now destruct F).
    { destruct F; shape. }
    exists r. split; [exact R1|]. rewrite (scalar_ok r _ [] R2) by (intro n; now destruct F). f_equal. rewrite R3 by (intro n; right; now destruct F).
    cbn [Sums map]. replace (slot _ _) with x by (destruct F; reflexivity). replace (slot _ _) with y by (destruct F; reflexivity).
    replace (slot _ _) with z by (destruct F; reflexivity). replace (slot _ _) with d by (destruct F; reflexivity).
    apply Sum_ext. intros i _. apply Sum_ext. intros j _. apply Sum_ext. intros k _. apply Sum_ext. intros w _. unfold product, hf. apply (f_equal2 rmul); [apply (value_keys _ _ _ _ Ht)|apply (value_keys _ _ _ _ Hc)]; destruct F; look.
  Qed.
End StripTensor.
