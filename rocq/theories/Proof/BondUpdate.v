(** The update of a bond: qr of the tensors of both ends, the operator, svd. *)
From Coq Require Import String Ascii List Bool Arith Lia Permutation Ring Setoid Morphisms.
From Verif Require Import Base.Outcome Base.SMap Model.Symmetry Model.Edge Model.Core Model.EdgeOperator Model.Contract Model.Misc Model.Qr Model.Svd Model.Auxiliaries Model.Spins Model.SimpleTensor
  Spec.Blocks Spec.Relabel Spec.Contract Spec.Plain Spec.Lapack Spec.Grid Spec.SquareLattice Spec.Factor Spec.Truncate Spec.Spectrum Spec.Svd Spec.ExactOperator Proof.SumFacts Proof.PlainFacts Proof.PlainTools Proof.SumBonds Proof.LineMath Proof.LineTensor Proof.ExactApply Proof.BondTools.
Import ListNotations.

Section BondSums.
  Context {R : Type} {RR : Scalar R}.
  Hypotheses (EA : exact_arithmetic R) (MA : associative_product R) (MD : distributive_product R).
  Notation "x *r y" := (rmul x y) (at level 40, left associativity).
  Add Ring scalars85 : (semi_ring EA MA MD).

  Lemma mul_Sum2 : forall m m' (f g : nat -> R) c, Sum m f *r c *r Sum m' g = Sum m (fun i => Sum m' (fun j => f i *r c *r g j)).
  Proof.
    intros. rewrite (ea_mul_comm _ EA (Sum m f) c), MA. rewrite (Sum_mul_r EA MD), (Sum_mul_l EA MD). apply Sum_ext. intros i _.
    rewrite (Sum_mul_l EA MD), (Sum_mul_l EA MD). apply Sum_ext. intros j _. ring.
  Qed.
  Lemma bond_sums : forall m m' D k d (qx qy : nat -> R) (u0 v0 : nat -> nat -> R) (s : nat -> R) (rx ry : nat -> nat -> nat -> R) (W : nat -> nat -> R),
    (forall i i', i < m -> i' < m' -> Sum D (fun c => u0 i c *r s c *r v0 i' c) = Sum d (fun q0 => Sum d (fun q1 => Sum k (fun j => rx i q0 j *r ry i' q1 j) *r W q0 q1))) ->
    Sum D (fun c => Sum m (fun i => u0 i c *r qx i) *r s c *r Sum m' (fun i' => v0 i' c *r qy i')) =
    Sum d (fun q0 => Sum d (fun q1 => Sum k (fun j => Sum m (fun i => qx i *r rx i q0 j) *r Sum m' (fun i' => qy i' *r ry i' q1 j)) *r W q0 q1)).
  Proof.
    intros m m' D k d qx qy u0 v0 s rx ry W H.
    transitivity (Sum m (fun i => Sum m' (fun i' => qx i *r qy i' *r Sum D (fun c => u0 i c *r s c *r v0 i' c)))).
    { transitivity (Sum D (fun c => Sum m (fun i => Sum m' (fun i' => qx i *r qy i' *r (u0 i c *r s c *r v0 i' c))))).
      - apply Sum_ext. intros c _. rewrite mul_Sum2. apply Sum_ext. intros i _. apply Sum_ext. intros i' _. ring.
      - rewrite (Sum_swap EA). apply Sum_ext. intros i _. rewrite (Sum_swap EA). apply Sum_ext. intros i' _. now rewrite (Sum_mul_l EA MD). }
    transitivity (Sum m (fun i => Sum m' (fun i' => Sum d (fun q0 => Sum d (fun q1 => Sum k (fun j => qx i *r rx i q0 j *r (qy i' *r ry i' q1 j) *r W q0 q1)))))).
    { apply Sum_ext. intros i Hi. apply Sum_ext. intros i' Hi'. rewrite H by assumption. rewrite (Sum_mul_l EA MD). apply Sum_ext. intros q0 _. rewrite (Sum_mul_l EA MD). apply Sum_ext. intros q1 _.
      rewrite (Sum_mul_r EA MD), (Sum_mul_l EA MD). apply Sum_ext. intros j _. ring. }
    transitivity (Sum d (fun q0 => Sum m (fun i => Sum m' (fun i' => Sum d (fun q1 => Sum k (fun j => qx i *r rx i q0 j *r (qy i' *r ry i' q1 j) *r W q0 q1)))))).
    { symmetry. rewrite (Sum_swap EA). apply Sum_ext. intros i _. now rewrite (Sum_swap EA). }
    apply Sum_ext. intros q0 _.
    transitivity (Sum d (fun q1 => Sum m (fun i => Sum m' (fun i' => Sum k (fun j => qx i *r rx i q0 j *r (qy i' *r ry i' q1 j) *r W q0 q1))))).
    { symmetry. rewrite (Sum_swap EA). apply Sum_ext. intros i _. now rewrite (Sum_swap EA). }
    apply Sum_ext. intros q1 _.
    transitivity (Sum k (fun j => Sum m (fun i => Sum m' (fun i' => qx i *r rx i q0 j *r (qy i' *r ry i' q1 j) *r W q0 q1)))).
    { symmetry. rewrite (Sum_swap EA). apply Sum_ext. intros i _. now rewrite (Sum_swap EA). }
    rewrite (Sum_mul_r EA MD). apply Sum_ext. intros j _. rewrite (Sum_mul_r EA MD), (Sum_mul_r EA MD). apply Sum_ext. intros i _.
    rewrite (Sum_mul_l EA MD), (Sum_mul_r EA MD). reflexivity.
  Qed.
End BondSums.

Section BondUpdate.
  Context {R V : Type} {RR : Scalar R}.
  Notation tens := (tensor unit R).
  Hypotheses (EA : exact_arithmetic R) (MA : associative_product R) (MD : distributive_product R).
  Variables (E : @env R) (J : internal) (Iq : qr_names) (Is : svd_names).
  Hypotheses (HJ : NoDup [i_contract_0 J; i_contract_1 J; i_contract_2 J]) (HN : own_names Iq Is).
  Variables (L : qr_lapack R) (gesvd : nat -> nat -> list R -> bool * (list V * list R * list R)).
  Variables (vzero vjunk : V) (greater : V -> V -> bool) (of_real : V -> R) (vabs : V -> V) (vdiv : V -> V -> V).
  Hypotheses (HL : qr_sound L) (HS : svd_sound of_real vzero greater gesvd) (HO : strict_order greater).

  (** bonds to the right, bonds below *)
  Definition fr (horizontal : bool) : frame := if horizontal then Fu else Fl.
  Definition pk (F : frame) (d : nat) (u v l r : option nat) : slots := [(phys, Some d); (nm (fup F) 0, u); (nm (fdown F) 0, v); (nm (fleft F) 0, l); (nm (fright F) 0, r)].
  Definition pf (F : frame) (t : tens) (p u v l r : nat) : R := value t [(phys, p); (nm (fup F) 0, u); (nm (fdown F) 0, v); (nm (fleft F) 0, l); (nm (fright F) 0, r)].
  Definition ok (d : nat) : slots := [(in_name 0, Some d); (in_name 1, Some d); (out_name 0, Some d); (out_name 1, Some d)].

  Ltac shape := cbn; repeat constructor.
  Ltac look := cbn; repeat (constructor; [first [right; reflexivity | left; reflexivity | left; assumption]|]); try constructor.

  Theorem bond_ok : forall h cut d u1 v1 l1 u2 v2 r2 k x y U, has x (pk (fr h) d u1 v1 l1 (Some k)) -> has y (pk (fr h) d u2 v2 (Some k) r2) -> has U (ok d) -> 0 < cut \/ d * d * k <= cut ->
    (exists msg, bond_parts E J Iq Is L gesvd vzero vjunk greater vabs vdiv cut h (Ok x) (Ok y) (Ok U) = Throw (RuntimeError msg) /\ ~ qr_never_fails L) \/
    exists u l v w, bond_parts E J Iq Is L gesvd vzero vjunk greater vabs vdiv cut h (Ok x) (Ok y) (Ok U) = Ok (u, normal_s vzero greater vabs vdiv [(tt, l)], v, w) /\
      (w = true -> ~ svd_never_fails gesvd) /\ has u (pk (fr h) d u1 v1 l1 (Some (length l))) /\ has v (pk (fr h) d u2 v2 (Some (length l)) r2) /\ length l <= cut /\
      (d * d * k <= cut -> w = false -> forall p q a1 b1 c1 a2 b2 c2, p < d -> q < d -> a1 < size u1 -> b1 < size v1 -> c1 < size l1 -> a2 < size u2 -> b2 < size v2 -> c2 < size r2 ->
         Sum (length l) (fun c => rmul (rmul (pf (fr h) u p a1 b1 c1 c) (of_real (nth c l vzero))) (pf (fr h) v q a2 b2 c c2)) =
         Sum d (fun q0 => Sum d (fun q1 => rmul (Sum k (fun c => rmul (pf (fr h) x q0 a1 b1 c1 c) (pf (fr h) y q1 a2 b2 c c2))) (operator_element 2 U [q0; q1] [p; q])))).
  Proof.
    intros h cut d u1 v1 l1 u2 v2 r2 k x y U Hx Hy HU Hcut. unfold bond_parts. set (F := fr h).
    replace (nm (if h then Rgt else Down) 0) with (nm (fright F) 0) by (now destruct h). replace (nm (if h then Lft else Up) 0) with (nm (fleft F) 0) by (now destruct h).
    assert (HF : F = Fu \/ F = Fl) by (destruct h; auto). fold F in Hx, Hy. clearbody F. clear h.
    set (a := nm (fright F) 0). set (b := nm (fleft F) 0). destruct HN as [HN1 [HN3 HN2]].
    assert (Na : a <> i_qr_1 Iq /\ a <> i_qr_2 Iq) by (now destruct (HN2 (fright F)) as [? [? _]]). assert (Nb : b <> i_qr_1 Iq /\ b <> i_qr_2 Iq) by (now destruct (HN2 (fleft F)) as [? [? _]]).
    assert (Nx : NoDup (keys (pk F d u1 v1 l1 (Some k)))) by (apply nodupb_ok; now destruct F). assert (Ny : NoDup (keys (pk F d u2 v2 (Some k) r2))) by (apply nodupb_ok; now destruct F).
    cbn [bind].
    destruct (qr_has EA E J HJ L Iq HL HN1 x _ [phys; a] a b Hx Na Nb) as [[msg [Th1 Th2]]|[qx [rx [m [Q1 [Q2 [Q3 Q4]]]]]]]; [now destruct F|now destruct F|left; exists msg; rewrite Th1; now split|].
    assert (Bm := fun A B => qr_bound EA E L Iq HL HN1 x _ [phys; a] a b qx rx m Hx Nx Na Nb A B Q1 Q2). rewrite Q1. cbn [bind fst snd].
    destruct (qr_has EA E J HJ L Iq HL HN1 y _ [phys; b] b a Hy Nb Na) as [[msg [Th1 Th2]]|[qy [ry [m' [P1 [P2 [P3 P4]]]]]]]; [now destruct F|now destruct F|left; exists msg; rewrite Th1; now split|].
    assert (Bm' : m' <= d * k).
    { assert (B := qr_bound EA E L Iq HL HN1 y _ [phys; b] b a qy ry m' Hy Ny Nb Na ltac:(now destruct F) ltac:(now destruct F) P1 P2). destruct F; cbn in B; lia. }
    rewrite P1. cbn [bind fst snd]. clear Bm. right.
    assert (Nrx : nodupb (map (rename_one [(phys, phys_0)]) (keys ((b, Some m) :: within [phys; a] (pk F d u1 v1 l1 (Some k))))) = true) by (now destruct F).
    assert (Nry : nodupb (map (rename_one [(phys, phys_1)]) (keys ((a, Some m') :: within [phys; b] (pk F d u2 v2 (Some k) r2)))) = true) by (now destruct F).
    assert (Hrx := rename_keys_has rx _ [(phys, phys_0)] Q3 Nrx). assert (Hry := rename_keys_has ry _ [(phys, phys_1)] P3 Nry).
    destruct (contract_keys EA E J HJ _ _ _ _ [(a, b)] Hrx Hry) as [c1 [C1 [C2 C3]]]; try (now destruct F). { destruct F; shape. }
    rewrite C1. cbn [bind].
    assert (Hc1 : has c1 [(b, Some m); (phys_0, Some d); (a, Some m'); (phys_1, Some d)]) by (apply (has_same _ _ _ C2); destruct F; shape).
    destruct (contract_keys EA E J HJ c1 U _ _ [(phys_0, in_name 0); (phys_1, in_name 1)] Hc1 HU) as [c2 [D1 [D2 D3]]]; try (now destruct F). { destruct F; shape. }
    rewrite D1. cbn [bind].
    assert (Hc2 : has c2 [(b, Some m); (a, Some m'); (out_name 0, Some d); (out_name 1, Some d)]) by (apply (has_same _ _ _ D2); destruct F; shape).
    destruct (svd_parts EA E J HJ of_real vzero vjunk greater gesvd Is MA HS HO HN3 c2 _ [b; out_name 0] a b cut Hc2) as [u0 [l [v0 [w [S1 [S2 [S3 [S4 [S6 S5]]]]]]]]].
    { apply nodupb_ok. now destruct F. } { now destruct (HN2 (fright F)) as [_ [_ [? _]]]. } { now destruct (HN2 (fleft F)) as [_ [_ [_ ?]]]. } { now destruct F. } { now destruct F. }
    { destruct Hcut as [Hcut|Hcut]; [now left|right]. replace (fold_right _ _ _) with (m' * (d * 1)) by (now destruct F). nia. }
    rewrite S1. cbn [bind]. cbv beta iota zeta.
    destruct (contract_keys EA E J HJ u0 qx _ _ [(b, a)] S3 Q2) as [u' [U1 [U2 U3]]]; try (now destruct F). { destruct F; shape. }
    rewrite U1. cbn [bind].
    destruct (contract_keys EA E J HJ v0 qy _ _ [(a, b)] S4 P2) as [v' [V1 [V2 V3]]]; try (now destruct F). { destruct F; shape. }
    rewrite V1. cbn [bind].
    assert (Hu' : has u' [(a, Some (length l)); (out_name 0, Some d); (nm (fup F) 0, u1); (nm (fdown F) 0, v1); (b, l1)]) by (apply (has_same _ _ _ U2); destruct F; shape).
    assert (Hv' : has v' [(b, Some (length l)); (out_name 1, Some d); (nm (fup F) 0, u2); (nm (fdown F) 0, v2); (a, r2)]) by (apply (has_same _ _ _ V2); destruct F; shape).
    match type of Hu' with has _ ?K => assert (Nu : nodupb (map (rename_one [(out_name 0, phys)]) (keys K)) = true) by (now destruct F) end.
    match type of Hv' with has _ ?K => assert (Nv : nodupb (map (rename_one [(out_name 1, phys)]) (keys K)) = true) by (now destruct F) end.
    exists (edge_rename u' [(out_name 0, phys)]), l, (edge_rename v' [(out_name 1, phys)]), w. split; [reflexivity|]. split; [exact S2|].
    split; [apply (has_same _ _ _ (rename_keys_has u' _ _ Hu' Nu)); destruct F; shape|]. split; [apply (has_same _ _ _ (rename_keys_has v' _ _ Hv' Nv)); destruct F; shape|]. split; [exact S6|].
    intros Hcut' Hw p q a1 b1 e1 a2 b2 e2 Hp Hq A1 B1 E1 A2 B2 E2. assert (Hf : m' * (d * 1) <= cut) by nia. specialize (S5 ltac:(destruct F; exact Hf) Hw).
    pose (QX := fun i => value qx [(a, i); (nm (fup F) 0, a1); (nm (fdown F) 0, b1); (b, e1)]).
    pose (QY := fun i => value qy [(b, i); (nm (fup F) 0, a2); (nm (fdown F) 0, b2); (a, e2)]).
    pose (U0 := fun i c => value u0 [(a, c); (b, i); (out_name 0, p)]).
    pose (V0 := fun i c => value v0 [(b, c); (a, i); (out_name 1, q)]).
    pose (RX := fun i q0 j => value rx [(b, i); (phys, q0); (a, j)]). pose (RY := fun i q1 j => value ry [(a, i); (phys, q1); (b, j)]).
    transitivity (Sum (length l) (fun c => rmul (rmul (Sum m (fun i => rmul (U0 i c) (QX i))) (of_real (nth c l vzero))) (Sum m' (fun i => rmul (V0 i c) (QY i))))).
    { apply Sum_ext. intros c Hc. f_equal; [f_equal|].
      - unfold pf. rewrite (rename_keys_value u' _ _ _ [(a, c); (out_name 0, p); (nm (fup F) 0, a1); (nm (fdown F) 0, b1); (b, e1)] Hu' Nu) by (destruct F; look).
        rewrite U3; [|apply in_slots_all; destruct F; cbn; repeat constructor; cbn; auto]. cbn [Sums map fst]. replace (slot _ _) with (Some m) by (destruct F; reflexivity). cbn [size].
        apply Sum_ext. intros i Hi. unfold product, U0, QX. f_equal; [apply (value_keys _ _ _ _ S3)|apply (value_keys _ _ _ _ Q2)]; destruct F; look.
      - unfold pf. rewrite (rename_keys_value v' _ _ _ [(b, c); (out_name 1, q); (nm (fup F) 0, a2); (nm (fdown F) 0, b2); (a, e2)] Hv' Nv) by (destruct F; look).
        rewrite V3; [|apply in_slots_all; destruct F; cbn; repeat constructor; cbn; auto]. cbn [Sums map fst]. replace (slot _ _) with (Some m') by (destruct F; reflexivity). cbn [size].
        apply Sum_ext. intros i Hi. unfold product, V0, QY. f_equal; [apply (value_keys _ _ _ _ S4)|apply (value_keys _ _ _ _ P2)]; destruct F; look. }
    rewrite (bond_sums EA MA MD m m' (length l) k d QX QY U0 V0 (fun c => of_real (nth c l vzero)) RX RY (fun q0 q1 => operator_element 2 U [q0; q1] [p; q])).
    - apply Sum_ext. intros q0 Hq0. apply Sum_ext. intros q1 Hq1. f_equal. apply Sum_ext. intros j Hj. f_equal.
      + unfold pf. rewrite Q4; [|apply in_slots_all; destruct F; cbn; repeat constructor; cbn; auto]. apply Sum_ext. intros i Hi. unfold QX, RX. f_equal; [apply (value_keys _ _ _ _ Q2)|apply (value_keys _ _ _ _ Q3)]; destruct F; look.
      + unfold pf. rewrite P4; [|apply in_slots_all; destruct F; cbn; repeat constructor; cbn; auto]. apply Sum_ext. intros i Hi. unfold QY, RY. f_equal; [apply (value_keys _ _ _ _ P2)|apply (value_keys _ _ _ _ P3)]; destruct F; look.
    - intros i i' Hi Hi'. transitivity (value c2 [(b, i); (a, i'); (out_name 0, p); (out_name 1, q)]).
      + rewrite S5; [|apply in_slots_all; destruct F; cbn; repeat constructor; cbn; auto]. apply Sum_ext. intros c Hc. unfold U0, V0.
        f_equal; [f_equal; apply (value_keys _ _ _ _ S3)|apply (value_keys _ _ _ _ S4)]; destruct F; look.
      + rewrite D3; [|apply in_slots_all; destruct F; cbn; repeat constructor; cbn; auto]. cbn [Sums map fst]. replace (slot _ phys_0) with (Some d) by (destruct F; reflexivity). replace (slot _ phys_1) with (Some d) by (destruct F; reflexivity). cbn [size].
        apply Sum_ext. intros q0 Hq0. apply Sum_ext. intros q1 Hq1. unfold product. f_equal; [|apply (value_keys _ _ _ _ HU); destruct F; look].
        rewrite C3; [|apply in_slots_all; destruct F; cbn; repeat constructor; cbn; auto]. cbn [Sums map fst]. replace (slot _ _) with (Some k) by (destruct F; reflexivity). cbn [size].
        apply Sum_ext. intros j Hj. unfold product, RX, RY. f_equal; [apply (rename_keys_value _ _ _ _ _ Q3 Nrx)|apply (rename_keys_value _ _ _ _ _ P3 Nry)]; destruct F; look.
  Qed.
End BondUpdate.
