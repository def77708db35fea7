(** The environments of a simple update lattice multiplied onto its tensors. *)
From Coq Require Import String Ascii List Bool Arith ZArith Lia Permutation.
From Verif Require Import Base.Outcome Base.SMap Model.Symmetry Model.Edge Model.Core Model.EdgeOperator Model.Elementwise Model.Contract Model.Misc Model.ShrinkExpand Model.Qr Model.Svd Model.Auxiliaries Model.Spins Model.SimpleTensor Model.Exact
  Spec.Blocks Spec.Relabel Spec.Contract Spec.Plain Spec.Lapack Spec.Grid Spec.SquareLattice Spec.SpinLattice Spec.Factor Spec.Truncate Spec.Spectrum Spec.Svd Spec.ExactState Spec.WeightedLattice Proof.LoopFacts Proof.SumFacts Proof.CoreFacts Proof.ElemFacts Proof.LegFacts Proof.TransposeNames Proof.RenameFacts Proof.RegroupFacts Proof.ContractNames Proof.ContractPlain Proof.PlainFacts Proof.PlainTools Proof.PlainElem Proof.SumBonds Proof.GridSum Proof.LatticeAmplitude Proof.SpinFacts Proof.SpinAmplitude Proof.ExactVector Proof.ExactValue Proof.ExactMain.
From Verif Require Proof.MultipleFacts.
From Verif Require Model.Schedule Model.SimpleUpdate.
Import ListNotations.

Section Weighted.
  Context {R V : Type} {RR : Scalar R}.
  Notation tens := (tensor unit R).
  Implicit Types t r : tens.
  Hypotheses (EA : exact_arithmetic R) (MA : associative_product R).
  Variables (E : @env R) (of_real : V -> R).
  Notation net := (SimpleUpdate.network (res tens) (res (list (unit * list V)))).

  (** ** one spectrum *)
  Theorem multiple_has : forall t K p d l c dd division, has t K -> slot K p = Some d -> length l = d -> dir_of c = Some dd ->
    exists r, multiple E t [(tt, l)] p c division = Ok r /\ has r K /\ forall a, in_slots K a -> value r a = rmul (value t a) (weight division (nth (index a p) l rzero)).
  Proof.
    intros t K p d l c dd division H Hp Hl Hc. assert (W := h_wf _ _ H). assert (B := h_block _ _ H).
    assert (Hin : In p (t_names t)) by (apply (has_in t K p H); congruence).
    assert (Hd : dim_of t p = d) by (assert (Q := has_size t K p H Hin); congruence).
    destruct (dimension_of t p W B Hin) as [_ Em].
    assert (Fit : Spectrum.fits t [(tt, l)] p dd).
    { intros e s k He Hs. exists l. destruct (turn dd s), s. split; [reflexivity|]. unfold legs_of in Em. rewrite (leg_named t p e W He) in Em. rewrite Em in Hs. destruct Hs as [Q|[]]. congruence. }
    destruct (MultipleFacts.multiple_at E t [(tt, l)] p c dd division W Hin Hc Fit) as [r [M1 [M2 [M3 [M4 M5]]]]].
    assert (HR : has r K).
    { constructor; [exact M2| |].
      - apply (blocks_exist r p tt d M2); [now rewrite M3|]. unfold legs_of. rewrite M3, M4. unfold legs_of in Em. rewrite Em. left. congruence.
      - intro n. rewrite <- (h_dim _ _ H n). unfold dimension, legs_of. now rewrite M3, M4. }
    exists r. split; [exact M1|]. split; [exact HR|]. intros a Ha.
    destruct (M5 (place t a) _ (place_assigns t a) (place_valid t K a H Ha)) as [x [vec [v [X1 [X2 [X3 X4]]]]]].
    rewrite (place_read t K a H Ha) in X1. injection X1 as <-.
    replace (place t a) with (place r a) in X4 by (unfold place; now rewrite M3). rewrite (place_read r K a HR Ha) in X4. injection X4 as ->.
    assert (C : coord (place t a) p = (tt, index a p)).
    { unfold coord, place. now rewrite (find_pos (fun n => (tt, index a n))). }
    rewrite C in X2, X3. cbn [fst snd] in X2, X3. destruct (turn dd tt). cbn in X2. injection X2 as <-. now rewrite (nth_error_nth _ _ _ X3).
  Qed.

  (** ** environments *)
  Definition sound_environment (M N : nat) (dim : bond -> nat) (x : net) : Prop :=
    forall k s, mfind k (SimpleUpdate.environment x) = Some s -> exists b l, In b (bonds M N) /\ k = bond_key b /\ s = Ok [(tt, l)] /\ length l = dim b.
  Lemma bond_key_inj : forall a b, bond_key a = bond_key b -> a = b.
  Proof. intros [i j|i j] [k l|k l] H; cbn in H; try discriminate; injection H as H1 H2; apply Nat2Z.inj in H1, H2; now subst. Qed.
  Definition side_bond (i j : nat) (d : SimpleUpdate.side) : option bond :=
    match d with
    | SimpleUpdate.SideL => match j with 0 => None | S j' => Some (Right_of i j') end
    | SimpleUpdate.SideU => match i with 0 => None | S i' => Some (Below i' j) end
    | SimpleUpdate.SideD => Some (Below i j)
    | SimpleUpdate.SideR => Some (Right_of i j)
    end.
  (** the factor of an index *)
  Definition side_factor (x : net) (i j : nat) (d : SimpleUpdate.side) (division : bool) (k : nat) : R :=
    match side_bond i j d with
    | Some b => match mfind (bond_key b) (SimpleUpdate.environment x) with Some (Ok ((_, l) :: _)) => weight division (nth k (map of_real l) rzero) | _ => rone end
    | None => rone
    end.
  Definition side_key (i j : nat) (d : SimpleUpdate.side) : Schedule.bond :=
    let i := Z.of_nat i in let j := Z.of_nat j in
    match d with
    | SimpleUpdate.SideL => (Schedule.DirR, (i, j - 1)) | SimpleUpdate.SideU => (Schedule.DirD, (i - 1, j)) | SimpleUpdate.SideD => (Schedule.DirD, (i, j)) | SimpleUpdate.SideR => (Schedule.DirR, (i, j))
    end%Z.
  Lemma key_of_side : forall i j d, match side_bond i j d with Some b => side_key i j d = bond_key b | None => forall b, side_key i j d <> bond_key b end.
  Proof.
    intros i j d. destruct d; cbn [side_bond side_key]; try reflexivity.
    - destruct j as [|j]; [|cbn [bond_key]; do 2 f_equal; lia]. intros [k l|k l] H; cbn [bond_key] in H; [|discriminate]. injection H as _ H. change (-1 = Z.of_nat l)%Z in H. lia.
    - destruct i as [|i]; [|cbn [bond_key]; do 2 f_equal; lia]. intros [k l|k l] H; cbn [bond_key] in H; [discriminate|]. injection H as H _. change (-1 = Z.of_nat k)%Z in H. lia.
  Qed.
  Lemma dir_of_letter : forall d, exists dd, dir_of (letter_of d) = Some dd.
  Proof. intros []; cbn; eauto. Qed.

  Notation try_multiple := (SimpleUpdate.try_multiple (multiple_t E of_real)).
  Notation try_all := (SimpleUpdate.try_all (multiple_t E of_real)).
  Theorem try_one : forall M N dim x i j d division t K, sound_environment M N dim x -> has t K ->
    (forall b, side_bond i j d = Some b -> In b (bonds M N) -> slot K (edge_of d) = Some (dim b)) ->
    exists r, try_multiple x (Ok t) (Z.of_nat i) (Z.of_nat j) d division = Ok r /\ has r K /\ forall a, in_slots K a -> value r a = rmul (value t a) (side_factor x i j d division (index a (edge_of d))).
  Proof.
    intros M N dim x i j d division t K HX H HK.
    assert (KEY := key_of_side i j d).
    assert (TM : try_multiple x (Ok t) (Z.of_nat i) (Z.of_nat j) d division = match mfind (side_key i j d) (SimpleUpdate.environment x) with Some s => multiple_t E of_real (Ok t) s d division | None => Ok t end) by (destruct d; reflexivity).
    rewrite TM. clear TM. unfold side_factor. destruct (mfind (side_key i j d) (SimpleUpdate.environment x)) as [s|] eqn:F.
    - destruct (HX _ _ F) as [b [l [Hb [Hk [-> Hl]]]]]. destruct (side_bond i j d) as [b'|] eqn:SB; [|exfalso; exact (KEY b Hk)].
      rewrite KEY in Hk. apply bond_key_inj in Hk. subst b'. rewrite KEY in F. rewrite F.
      destruct (dir_of_letter d) as [dd Hdd].
      destruct (multiple_has t K (edge_of d) (dim b) (map of_real l) (letter_of d) dd division H (HK b eq_refl Hb) ltac:(now rewrite map_length) Hdd) as [r [R1 R2]].
      exists r. split; [exact R1|exact R2].
    - exists t. split; [reflexivity|]. split; [exact H|]. intros a Ha. destruct (side_bond i j d) as [b|]; [|now rewrite (mul_1_r EA)]. rewrite KEY in F. rewrite F. now rewrite (mul_1_r EA).
  Qed.
  Theorem try_all_has : forall M N dim x i j division K, sound_environment M N dim x -> forall l t, has t K ->
    (forall d b, In d l -> side_bond i j d = Some b -> In b (bonds M N) -> slot K (edge_of d) = Some (dim b)) ->
    exists r, try_all x (Ok t) (Z.of_nat i) (Z.of_nat j) l division = Ok r /\ has r K /\
      forall a, in_slots K a -> value r a = rmul (value t a) (rprod (map (fun d => side_factor x i j d division (index a (edge_of d))) l)).
  Proof.
    intros M N dim x i j division K HX. induction l as [|d l IH]; intros t H HK.
    - exists t. split; [reflexivity|]. split; [exact H|]. intros a Ha. cbn. now rewrite (mul_1_r EA).
    - destruct (try_one M N dim x i j d division t K HX H ltac:(intros b; apply HK; now left)) as [r [R1 [R2 R3]]].
      destruct (IH r R2 ltac:(intros d' b Hd; apply HK; now right)) as [r' [Q1 [Q2 Q3]]]. exists r'. split.
      { unfold SimpleUpdate.try_all in *. cbn [fold_left]. rewrite R1. exact Q1. }
      split; [exact Q2|]. intros a Ha. rewrite (Q3 a Ha), (R3 a Ha). cbn [map rprod fold_right]. now rewrite MA.
  Qed.
  Lemma lookup_site : forall M N (T : nat -> nat -> tens) i j, i < M -> j < N -> cell (map (map Ok) (lattice_of M N T)) i j = Ok (Ok (T i j)).
  Proof.
    intros M N T i j Hi Hj. change (lattice_of M N T) with (table M N T). replace (map (map Ok) (table M N T)) with (table M N (fun i j => Ok (T i j))); [now apply cell_table|].
    unfold table. rewrite map_map. apply map_ext. intro. now rewrite map_map.
  Qed.
End Weighted.
