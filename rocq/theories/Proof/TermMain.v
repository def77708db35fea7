(** One term of the simple update applies its operator. *)
From Coq Require Import String Ascii List Bool Arith ZArith Lia Permutation Ring Setoid Morphisms.
From Verif Require Import Base.Outcome Base.SMap Model.Symmetry Model.Edge Model.Core Model.EdgeOperator Model.Elementwise Model.Contract Model.Misc Model.ShrinkExpand Model.Qr Model.Svd Model.Auxiliaries Model.Spins Model.SimpleTensor
  Spec.Blocks Spec.Relabel Spec.Contract Spec.Plain Spec.Lapack Spec.Grid Spec.SquareLattice Spec.SpinLattice Spec.Factor Spec.Truncate Spec.Spectrum Spec.Svd Spec.ExactState Spec.WeightedLattice Spec.ExactOperator Spec.LocalUpdate Proof.LoopFacts Proof.SumFacts Proof.CoreFacts Proof.ElemFacts Proof.SymmetryFacts Proof.ContractNames Proof.PlainFacts Proof.PlainTools Proof.PlainElem Proof.SumBonds Proof.LineMath Proof.LineTensor Proof.GridSum Proof.LatticeAmplitude Proof.SpinFacts Proof.SpinAmplitude Proof.ExactVector Proof.ExactValue Proof.ExactMain Proof.WeightedFacts Proof.WeightedMain Proof.ExactApply Proof.BondTools Proof.BondUpdate Proof.PairSum Proof.TermUpdate.
From Verif Require Model.Schedule Model.Lazy Model.SimpleUpdate Proof.SimpleUpdateFacts.
Import ListNotations.
#[local] Existing Instance SimpleUpdateFacts.OrdLaws_direction.

Section Spectrum.
  Context {R V : Type} {RR : Scalar R}.
  Variables (vzero : V) (greater : V -> V -> bool) (of_real : V -> R) (abs : R -> V) (vabs : V -> V) (vdiv : V -> V -> V).
  Hypotheses (HV : modulus vzero greater of_real abs) (HR : real_division vzero greater of_real vabs vdiv).
  Definition bigger (acc x : V) : V := if greater (vabs x) acc then vabs x else acc.
  Lemma fold_bigger : forall l acc, (fold_left bigger l acc = acc \/ greater (fold_left bigger l acc) acc = true) /\ (fold_left bigger l acc = acc -> forall x, In x l -> greater (vabs x) acc = false).
  Proof.
    destruct (m_order _ _ _ _ HV) as [A T _]. induction l as [|x l IH]; intro acc; cbn [fold_left]; [split; [now left|intros _ x []]|].
    destruct (IH (bigger acc x)) as [I1 I2]. unfold bigger in *. destruct (greater (vabs x) acc) eqn:G.
    - assert (P : greater (fold_left (fun acc x => if greater (vabs x) acc then vabs x else acc) l (vabs x)) acc = true) by (destruct I1 as [-> |I1]; [exact G|eauto]).
      split; [now right|]. intro Q. exfalso. rewrite Q, A in P. discriminate P.
    - split; [exact I1|]. intros Q y [<-|Hy]; [exact G|]. now apply I2.
  Qed.
  Lemma norm_s_or_zero : forall l, let n := norm_s vzero greater vabs [(tt, l)] in greater n vzero = true \/ forall x, In x l -> of_real x = rzero.
  Proof.
    intros l n. destruct (fold_bigger l vzero) as [[Q|Q] B]; [right|left; exact Q]. intros x Hx. apply (rv_zero _ _ _ _ _ HR). now apply B.
  Qed.
End Spectrum.

Section Step.
  Context {R V : Type} {RR : Scalar R}.
  Notation tens := (tensor unit R).
  Notation net := (SimpleUpdate.network (res tens) (res (list (unit * list V)))).
  Variables (E : @env R) (J : internal) (Iq : qr_names) (Is : svd_names).
  Variables (L : qr_lapack R) (gesvd : nat -> nat -> list R -> bool * (list V * list R * list R)).
  Variables (vzero vjunk : V) (greater : V -> V -> bool) (of_real : V -> R) (abs : R -> V) (vabs : V -> V) (vdiv : V -> V -> V).
  Notation try_all := (SimpleUpdate.try_all (multiple_t E of_real)).
  Notation parts := (bond_parts E J Iq Is L gesvd vzero vjunk greater vabs vdiv).
  Notation normalized := (normalized_t vzero greater of_real abs).
  Variables (M N : nat) (h : bool) (i j : nat).
  Notation b0 := (b0 h i j).
  Notation i2 := (i2 h i).
  Notation j2 := (j2 h j).
  Hypothesis H0 : In b0 (bonds M N).
  Definition four : list SimpleUpdate.side := [SimpleUpdate.SideL; SimpleUpdate.SideU; SimpleUpdate.SideD; SimpleUpdate.SideR].

  Definition update_bond (cut : nat) (x : net) (U : res tens) : res net :=
    (if h then SimpleUpdate.update_horizontal_bond else SimpleUpdate.update_vertical_bond) (multiple_t E of_real) (bond_update_t E J Iq Is L gesvd vzero vjunk greater vabs vdiv cut) normalized x (Z.of_nat i, Z.of_nat j) U.
  Definition message (cut : nat) (x : net) (U : res tens) : res bool := bond_message E J Iq Is L gesvd vzero vjunk greater of_real vabs vdiv cut h (Z.of_nat i, Z.of_nat j) U x.
  Definition both (x : net) (f : nat -> nat -> res tens) (U : res tens) (cut : nat) :=
    parts cut h (try_all x (f i j) (Z.of_nat i) (Z.of_nat j) four false) (try_all x (f i2 j2) (Z.of_nat i2) (Z.of_nat j2) (sides2 h) false) U.
  Definition spectrum_of (x : net) f U cut := bind (both x f U cut) (fun p => Ok (snd (fst (fst p)))).
  Definition with_spectrum (x : net) f U cut : net := SimpleUpdate.mkNetwork (SimpleUpdate.lattice x) (mset (bond_key b0) (spectrum_of x f U cut) (SimpleUpdate.environment x)).
  Definition new1 (x : net) f U cut : res tens := normalized (try_all (with_spectrum x f U cut) (bind (both x f U cut) (fun p => Ok (fst (fst (fst p))))) (Z.of_nat i) (Z.of_nat j) (sides1 h) true).
  Definition new2 (x : net) f U cut : res tens := normalized (try_all (with_spectrum x f U cut) (bind (both x f U cut) (fun p => Ok (snd (fst p)))) (Z.of_nat i2) (Z.of_nat j2) (sides2 h) true).

  Lemma update_bond_eq : forall cut x f U, SimpleUpdate.lattice x = table M N f ->
    update_bond cut x U = Ok (SimpleUpdate.mkNetwork (table M N (at_site (at_site f i j (new1 x f U cut)) i2 j2 (new2 x f U cut))) (mset (bond_key b0) (spectrum_of x f U cut) (SimpleUpdate.environment x))) /\
    message cut x U = bind (both x f U cut) (fun p => Ok (snd p)).
  Proof.
    intros cut x f U Hx. destruct (inside M N h i j H0) as [I1 [I2 [I3 I4]]].
    unfold update_bond, message, bond_message, new1, new2, with_spectrum, spectrum_of, both, four.
    unfold TermUpdate.i2, TermUpdate.j2, TermUpdate.b0, sides1, sides2 in *. destruct h; cbn [fst snd bond_key].
    - split.
      + unfold SimpleUpdate.update_horizontal_bond. replace (Z.of_nat j + 1)%Z with (Z.of_nat (S j)) by lia.
        rewrite (get_table M N x f i j Hx I1 I2). cbn [bind]. rewrite (get_table M N x f i (S j) Hx I3 I4). cbn [bind]. unfold bond_update_t. cbv beta iota zeta.
        unfold SimpleUpdate.set_environment. erewrite (set_table M N); [|exact Hx|exact I1|exact I2]. cbn [bind]. erewrite (set_table M N); [reflexivity|reflexivity|exact I3|exact I4].
      + replace (Z.of_nat j + 1)%Z with (Z.of_nat (S j)) by lia. rewrite (get_table M N x f i j Hx I1 I2). cbn [bind]. rewrite (get_table M N x f i (S j) Hx I3 I4). reflexivity.
    - split.
      + unfold SimpleUpdate.update_vertical_bond. replace (Z.of_nat i + 1)%Z with (Z.of_nat (S i)) by lia.
        rewrite (get_table M N x f i j Hx I1 I2). cbn [bind]. rewrite (get_table M N x f (S i) j Hx I3 I4). cbn [bind]. unfold bond_update_t. cbv beta iota zeta.
        unfold SimpleUpdate.set_environment. erewrite (set_table M N); [|exact Hx|exact I1|exact I2]. cbn [bind]. erewrite (set_table M N); [reflexivity|reflexivity|exact I3|exact I4].
      + replace (Z.of_nat i + 1)%Z with (Z.of_nat (S i)) by lia. rewrite (get_table M N x f i j Hx I1 I2). cbn [bind]. rewrite (get_table M N x f (S i) j Hx I3 I4). reflexivity.
  Qed.

  Lemma try_throw : forall (x : net) e i' j' l division, try_all x (Throw e) i' j' l division = Throw e.
  Proof.
    intros x e i' j' l division. unfold SimpleUpdate.try_all. induction l as [|s l IH]; [reflexivity|]. cbn [fold_left].
    replace (SimpleUpdate.try_multiple (multiple_t E of_real) x (Throw e) i' j' s division) with (Throw e : res tens); [exact IH|]. unfold SimpleUpdate.try_multiple. now destruct (mfind _ _).
  Qed.

  (** both orders of the sites *)
  Notation result := (term_result E J Iq Is L gesvd vzero vjunk greater of_real abs vabs vdiv).
  Lemma term_form : forall cut U x ps, ps = [(i, j); (i2, j2)] \/ ps = [(i2, j2); (i, j)] -> result cut (map z_site ps) U x =
    bind (update_bond cut x (Ok U)) (fun x' => bind (mapM (fun s => bind (SimpleUpdate.get_site x' (fst s) (snd s)) (fun t => t)) (map z_site ps)) (fun _ => bind (message cut x (Ok U)) (fun w => Ok (x', w)))).
  Proof.
    intros cut U x ps Hps. unfold term_result, single_term_t.
    assert (A : forall k, (Z.of_nat k =? Z.of_nat k)%Z = true) by (intro; apply Z.eqb_refl).
    assert (B : forall k, (Z.of_nat k =? Z.of_nat (S k) + 1)%Z = false) by (intro; apply Z.eqb_neq; lia).
    assert (C : forall k, (Z.of_nat k + 1 =? Z.of_nat (S k))%Z = true) by (intro; apply Z.eqb_eq; lia).
    assert (D : forall k, (Z.of_nat (S k) =? Z.of_nat k + 1)%Z = true) by (intro; apply Z.eqb_eq; lia).
    assert (F : forall k, (Z.of_nat k =? Z.of_nat (S k))%Z = false) by (intro; apply Z.eqb_neq; lia).
    assert (F' : forall k, (Z.of_nat (S k) =? Z.of_nat k)%Z = false) by (intro; apply Z.eqb_neq; lia).
    assert (X : SimpleUpdate.single_term (multiple_t E of_real) (site_update_t E J) (bond_update_t E J Iq Is L gesvd vzero vjunk greater vabs vdiv cut) normalized (map z_site ps) (Ok U) x = update_bond cut x (Ok U)).
    { unfold SimpleUpdate.single_term, update_bond, TermUpdate.i2, TermUpdate.j2 in *. destruct Hps as [-> | ->]; unfold z_site, map; cbn [fst snd]; destruct h; rewrite ?A, ?B, ?C, ?D, ?F, ?F'; reflexivity. }
    assert (Y : term_message E J Iq Is L gesvd vzero vjunk greater of_real vabs vdiv cut (map z_site ps) (Ok U) x = message cut x (Ok U)).
    { unfold term_message, message, TermUpdate.i2, TermUpdate.j2 in *. destruct Hps as [-> | ->]; unfold z_site, map; cbn [fst snd]; destruct h; rewrite ?A, ?B, ?C, ?D, ?F, ?F'; reflexivity. }
    rewrite X, Y. reflexivity.
  Qed.
End Step.

Section Main.
  Context {R V : Type} {RR : Scalar R}.
  Notation tens := (tensor unit R).
  Notation net := (SimpleUpdate.network (res tens) (res (list (unit * list V)))).
  Hypotheses (EA : exact_arithmetic R) (MA : associative_product R) (MD : distributive_product R) (DV : dividing R).
  Notation "x *r y" := (rmul x y) (at level 40, left associativity).
  Add Ring scalars88 : (semi_ring EA MA MD).
  Variables (E : @env R) (J : internal) (Iq : qr_names) (Is : svd_names).
  Hypotheses (HJ : NoDup [i_contract_0 J; i_contract_1 J; i_contract_2 J]) (HN : own_names Iq Is).
  Variables (L : qr_lapack R) (gesvd : nat -> nat -> list R -> bool * (list V * list R * list R)).
  Variables (vzero vjunk : V) (greater : V -> V -> bool) (of_real : V -> R) (abs : R -> V) (vabs : V -> V) (vdiv : V -> V -> V).
  Hypotheses (HL : qr_sound L) (HS : svd_sound of_real vzero greater gesvd) (HV : modulus vzero greater of_real abs) (HR : real_division vzero greater of_real vabs vdiv).
  Variables (M N d : nat).
  Notation set := (set bond_eqb).
  Notation normal := (normal vzero greater of_real abs).
  Notation norm_t := (norm_t vzero greater abs).
  Notation try_all := (SimpleUpdate.try_all (multiple_t E of_real)).

  Lemma normal_se : forall dim t i j, has t (spin_slots M N d dim i j) -> i < M -> j < N -> has (normal t) (spin_slots M N d dim i j) /\
    exists n, forall p at_, p < d -> good M N dim at_ -> n *r se (normal t) p at_ (i, j) = se t p at_ (i, j).
  Proof.
    intros dim t i j Ht Hi Hj. destruct (transform_has t _ (fun y => rdiv y (of_real (norm_t t))) Ht) as [T1 T2]. split; [exact T1|].
    destruct (norm_or_zero vzero greater of_real abs HV t _ Ht) as [Hn|Z]; [exists (of_real (norm_t t))|exists rzero]; intros p at_ Hp G; rewrite !se_eq; unfold spin_elements, SimpleTensor.normal.
    - rewrite T2; [|apply in_spin_slots; [exact Hp|now apply good_site]]. rewrite (ea_mul_comm _ EA). now apply DV.
    - rewrite Z; [|apply in_spin_slots; [exact Hp|now apply good_site]]. ring.
  Qed.
  Lemma spectrum_n : forall l, exists l' n, normal_s vzero greater vabs vdiv [(tt, l)] = [(tt, l')] /\ length l' = length l /\ forall c, c < length l -> n *r of_real (nth c l' vzero) = of_real (nth c l vzero).
  Proof.
    intro l. set (n := norm_s vzero greater vabs [(tt, l)]). exists (map (fun y => vdiv y n) l).
    assert (X : forall c, c < length l -> nth c (map (fun y => vdiv y n) l) vzero = vdiv (nth c l vzero) n).
    { intros c Hc. rewrite (nth_indep _ vzero (vdiv vzero n)) by (now rewrite map_length). apply (map_nth (fun y => vdiv y n)). }
    destruct (norm_s_or_zero vzero greater of_real abs vabs vdiv HV HR l) as [G|Z]; [exists (of_real n)|exists rzero]; (split; [reflexivity|split; [apply map_length|]]); intros c Hc.
    - rewrite X by exact Hc. rewrite (rv_div _ _ _ _ _ HR) by exact G. rewrite (ea_mul_comm _ EA). apply DV. now apply (m_positive _ _ _ _ HV).
    - rewrite (Z (nth c l vzero)) by (now apply nth_In). ring.
  Qed.

  Variables (h : bool) (i j : nat).
  Notation b0 := (b0 h i j).
  Notation i2 := (i2 h i).
  Notation j2 := (j2 h j).
  Hypothesis H0 : In b0 (bonds M N).
  Variables (dim : bond -> nat) (T : nat -> nat -> tens) (x : net).
  Hypothesis HX : simple_lattice M N d dim T x.
  Notation w := (weight_on of_real x).
  Let f : nat -> nat -> res tens := fun i j => Ok (T i j).

  Lemma lattice_table : SimpleUpdate.lattice x = table M N f.
  Proof. rewrite (s_lattice _ _ _ _ _ _ HX). unfold lattice_of, table. rewrite map_map. apply map_ext. intro k. now rewrite map_map. Qed.
  Definition fac (i j : nat) (l : list SimpleUpdate.side) (division : bool) (at_ : bond -> nat) : R := rprod (map (fun s => side_factor of_real x i j s division (at_side at_ i j s)) l).
  Lemma fac_set : forall i' j' l division at_ c, (forall s, In s l -> side_bond i' j' s <> Some b0) -> fac i' j' l division (set at_ b0 c) = fac i' j' l division at_.
  Proof. intros i' j' l division at_ c H. unfold fac. f_equal. apply map_ext_in. intros s Hs. f_equal. apply at_side_set. now apply H. Qed.
  Lemma side_ends : forall i' j' s b, side_bond i' j' s = Some b -> is_end b (i', j').
  Proof. intros i' j' s b H. unfold is_end. destruct s; cbn [side_bond] in H; [destruct j'; [discriminate|]|destruct i'; [discriminate|]| |]; injection H as <-; cbn; auto. Qed.
  Lemma fac_inverse : forall i' j' l at_, weights_around M N dim w b0 -> ((i', j') = first_site b0 \/ (i', j') = second_site b0) -> (forall s, In s l -> side_bond i' j' s <> Some b0) -> good_others M N h i j dim at_ ->
    fac i' j' l true at_ *r fac i' j' l false at_ = rone.
  Proof.
    intros i' j' l at_ HW Hp Hl G. unfold fac. rewrite <- (rprod_mul EA MA). apply (rprod_ones EA). intros s Hs. apply (side_inverse EA DV of_real M N dim); [exact (s_environment _ _ _ _ _ _ HX)|].
    intros b Hb Hin. assert (NE : b <> b0) by (intro Q; apply (Hl s Hs); congruence). apply HW; [exact Hin|exact NE| |].
    - destruct Hp as [<-|<-]; [left|right]; now apply side_ends in Hb.
    - unfold at_side. rewrite Hb. apply G. now apply in_others.
  Qed.
  Lemma fac_four : forall at_ c, c < dim b0 -> fac i j four false (set at_ b0 c) = fac i j (sides1 h) false at_ *r w b0 c.
  Proof.
    intros at_ c Hc. rewrite <- (fac_set i j (sides1 h) false at_ c (sides1_miss h i j)). unfold fac, four. assert (X : at_side (set at_ b0 c) i j (if h then SimpleUpdate.SideR else SimpleUpdate.SideD) = c).
    { unfold at_side, TermUpdate.b0. destruct h; cbn [side_bond]; apply (set_same bond_eqb bond_spec). }
    assert (Y : side_factor of_real x i j (if h then SimpleUpdate.SideR else SimpleUpdate.SideD) false (at_side (set at_ b0 c) i j (if h then SimpleUpdate.SideR else SimpleUpdate.SideD)) = w b0 c) by (rewrite X; unfold TermUpdate.b0; now destruct h).
    rewrite <- Y. clear X Y. unfold sides1. destruct h; cbn [map]; unfold rprod; cbn [fold_right]; ring.
  Qed.
  (** ** the new environment *)
  Section NewEnvironment.
    Variables (l' : list V) (y : net).
    Hypothesis Hy : SimpleUpdate.environment y = mset (bond_key b0) (Ok [(tt, l')]) (SimpleUpdate.environment x).
    Lemma find_other : forall b, b <> b0 -> mfind (bond_key b) (SimpleUpdate.environment y) = mfind (bond_key b) (SimpleUpdate.environment x).
    Proof. intros b Hb. rewrite Hy. apply mfind_mset_other. intro Q. now apply bond_key_inj in Q. Qed.
    Lemma find_new : mfind (bond_key b0) (SimpleUpdate.environment y) = Some (Ok [(tt, l')]).
    Proof. rewrite Hy. apply mfind_mset_same. Qed.
    Lemma sound_new : sound_environment M N (dim_with h i j dim (length l')) y.
    Proof.
      intros k sp Hf. destruct (eqb k (bond_key b0)) eqn:Q.
      - apply eqb_eq in Q. subst k. rewrite find_new in Hf. injection Hf as <-. exists b0, l'. repeat split; auto. symmetry. apply dim_with_hit.
      - apply eqb_false in Q. rewrite Hy, mfind_mset_other in Hf by exact Q. destruct (s_environment _ _ _ _ _ _ HX k sp Hf) as [b [l [A [B [C D]]]]]. exists b, l. repeat split; auto.
        rewrite dim_with_miss; [exact D|]. intros ->. now apply Q.
    Qed.
    Lemma side_same : forall i' j' sd division k, side_bond i' j' sd <> Some b0 -> side_factor of_real y i' j' sd division k = side_factor of_real x i' j' sd division k.
    Proof. intros i' j' sd division k H. unfold side_factor. destruct (side_bond i' j' sd) as [b|]; [|reflexivity]. rewrite find_other by congruence. reflexivity. Qed.
    Lemma weight_same : forall b k, b <> b0 -> weight_on of_real y b k = w b k.
    Proof. intros b k H. unfold weight_on. now rewrite find_other. Qed.
    Lemma weight_new : forall c, c < length l' -> weight_on of_real y b0 c = of_real (nth c l' vzero).
    Proof. intros c Hc. unfold weight_on. rewrite find_new. rewrite (nth_indep _ rzero (of_real vzero)) by (now rewrite map_length). apply map_nth. Qed.
    Lemma new_site : forall i' j' sides t, has t (spin_slots M N d (dim_with h i j dim (length l')) i' j') -> i' < M -> j' < N -> ((i', j') = first_site b0 \/ (i', j') = second_site b0) -> (forall sd, In sd sides -> side_bond i' j' sd <> Some b0) ->
      exists r n, normalized_t vzero greater of_real abs (try_all y (Ok t) (Z.of_nat i') (Z.of_nat j') sides true) = Ok r /\ has r (spin_slots M N d (dim_with h i j dim (length l')) i' j') /\
        (weights_around M N dim w b0 -> forall p at_ c, p < d -> good_others M N h i j dim at_ -> c < length l' -> n *r se r p (set at_ b0 c) (i', j') *r fac i' j' sides false at_ = se t p (set at_ b0 c) (i', j')).
    Proof.
      intros i' j' sides t Ht Hi Hj He Hm. destruct (try_se EA MA E of_real M N d _ y i' j' sides true t sound_new Hi Hj Ht) as [r [R1 [R2 R3]]].
      destruct (normal_se _ r i' j' R2 Hi Hj) as [N1 [n N2]]. exists (normal r), n. split; [unfold normalized_t; rewrite R1; reflexivity|]. split; [exact N1|].
      intros HW p at_ c Hp G Hc. assert (Gs := good_set M N h i j H0 dim at_ _ c G Hc). rewrite (N2 p _ Hp Gs), (R3 p _ Hp Gs).
      replace (rprod _) with (fac i' j' sides true at_). { rewrite MA, fac_inverse by auto. ring. }
      rewrite <- (fac_set i' j' sides true at_ c Hm). unfold fac. f_equal. apply map_ext_in. intros sd Hs. symmetry. apply side_same. now apply Hm.
    Qed.
  End NewEnvironment.

  Lemma slots_far : forall k i' j', far b0 (i', j') = true -> spin_slots M N d (dim_with h i j dim k) i' j' = spin_slots M N d dim i' j'.
  Proof.
    intros k i' j' F. apply far_spec in F as [F1 F2]. unfold spin_slots, site_slots.
    assert (X : forall b, is_end b (i', j') -> dim_with h i j dim k b = dim b).
    { intros b Hb. apply dim_with_miss. intros ->. destruct Hb as [Q|Q]; [apply F1|apply F2]; rewrite Q; unfold TermUpdate.b0; now destruct h. }
    unfold up_slot, down_slot, left_slot, right_slot, is_end in *. rewrite (X (Below i' j')) by (now left). rewrite (X (Right_of i' j')) by (now left).
    destruct i' as [|i']; destruct j' as [|j']; rewrite ?(X (Below i' _)), ?(X (Right_of _ j')) by (now right); reflexivity.
  Qed.
  Lemma first_end : (i, j) = first_site b0 /\ (i2, j2) = second_site b0 /\ (i, j) <> (i2, j2).
  Proof. unfold TermUpdate.i2, TermUpdate.j2, TermUpdate.b0. destruct h; repeat split; intro Q; injection Q; lia. Qed.

  Notation result := (term_result E J Iq Is L gesvd vzero vjunk greater of_real abs vabs vdiv).
  Theorem bond_step : forall cut U ps, has U (ok d) -> 0 < cut \/ d * d * dim b0 <= cut -> ps = [(i, j); (i2, j2)] \/ ps = [(i2, j2); (i, j)] ->
    (exists msg, result cut (map z_site ps) U x = Throw (RuntimeError msg) /\ ~ qr_never_fails L) \/
    exists x' wn k T', result cut (map z_site ps) U x = Ok (x', wn) /\ (wn = true -> ~ svd_never_fails gesvd) /\ simple_lattice M N d (dim_with h i j dim k) T' x' /\ k <= cut /\
      (forall i' j', far b0 (i', j') = true -> T' i' j' = T i' j') /\
      (forall b, b <> b0 -> mfind (bond_key b) (SimpleUpdate.environment x') = mfind (bond_key b) (SimpleUpdate.environment x)) /\
      (msorted (SimpleUpdate.environment x) -> msorted (SimpleUpdate.environment x')) /\
      (weights_around M N dim w b0 -> d * d * dim b0 <= cut -> wn = false ->
         exists c, forall s, spins_within M N d s -> applied d [(i, j); (i2, j2)] U (weighted_wave M N dim T w) s = c *r weighted_wave M N (dim_with h i j dim k) T' (weight_on of_real x') s).
  Proof.
    intros cut U ps HU Hcut Hps. destruct (inside M N h i j H0) as [I1 [I2 [I3 I4]]]. destruct first_end as [E1 [E2 E3]].
    assert (HT : forall i j, i < M -> j < N -> has (T i j) (spin_slots M N d dim i j)) by (intros; apply fits_spin_has; now apply (s_site _ _ _ _ _ _ HX)).
    assert (SX := s_environment _ _ _ _ _ _ HX).
    destruct (try_se EA MA E of_real M N d dim x i j four false _ SX I1 I2 (HT i j I1 I2)) as [xw [X1 [X2 X3]]].
    destruct (try_se EA MA E of_real M N d dim x i2 j2 (sides2 h) false _ SX I3 I4 (HT i2 j2 I3 I4)) as [yw [Y1 [Y2 Y3]]].
    destruct (update_bond_eq E J Iq Is L gesvd vzero vjunk greater of_real abs vabs vdiv M N h i j H0 cut x f (Ok U) lattice_table) as [U1 U2].
    rewrite (term_form E J Iq Is L gesvd vzero vjunk greater of_real abs vabs vdiv M N h i j H0 cut U x ps Hps), U1, U2. cbn [bind].
    assert (B : both E J Iq Is L gesvd vzero vjunk greater of_real vabs vdiv h i j x f (Ok U) cut = bond_parts E J Iq Is L gesvd vzero vjunk greater vabs vdiv cut h (Ok xw) (Ok yw) (Ok U)).
    { unfold both, f. now rewrite X1, Y1. }
    destruct (bond_se EA MA MD E J Iq Is HJ HN L gesvd vzero vjunk greater of_real abs vabs vdiv HL HS HV M N d h i j H0 dim cut xw yw U X2 Y2 HU Hcut) as [[msg [Th1 Th2]]|[u [l [v [wn [P1 [P2 [P3 [P4 [P6 P5]]]]]]]]]].
    - left. exists msg. assert (A1 : new1 E J Iq Is L gesvd vzero vjunk greater of_real abs vabs vdiv h i j x f (Ok U) cut = Throw (RuntimeError msg)) by (unfold new1; rewrite B, Th1; cbn [bind]; rewrite try_throw; reflexivity).
      assert (A2 : new2 E J Iq Is L gesvd vzero vjunk greater of_real abs vabs vdiv h i j x f (Ok U) cut = Throw (RuntimeError msg)) by (unfold new2; rewrite B, Th1; cbn [bind]; rewrite try_throw; reflexivity).
      rewrite A1, A2.
      assert (S1 : forall env, SimpleUpdate.get_site (SimpleUpdate.mkNetwork (table M N (at_site (at_site f i j (Throw (RuntimeError msg))) i2 j2 (Throw (RuntimeError msg)))) env : net) (Z.of_nat i) (Z.of_nat j) = Ok (Throw (RuntimeError msg))).
      { intro env. erewrite (get_table M N); [|reflexivity|exact I1|exact I2]. rewrite at_site_miss by exact E3. now rewrite at_site_hit. }
      assert (S2 : forall env, SimpleUpdate.get_site (SimpleUpdate.mkNetwork (table M N (at_site (at_site f i j (Throw (RuntimeError msg))) i2 j2 (Throw (RuntimeError msg)))) env : net) (Z.of_nat i2) (Z.of_nat j2) = Ok (Throw (RuntimeError msg))).
      { intro env. erewrite (get_table M N); [|reflexivity|exact I3|exact I4]. now rewrite at_site_hit. }
      destruct Hps as [-> | ->]; cbn [map mapM z_site fst snd]; [rewrite S1|rewrite S2]; now split.
    - right. destruct (spectrum_n l) as [l' [n0 [L1 [L2 L3]]]]. rewrite L1 in P1.
      assert (SP : spectrum_of E J Iq Is L gesvd vzero vjunk greater of_real vabs vdiv h i j x f (Ok U) cut = Ok [(tt, l')]) by (unfold spectrum_of; rewrite B, P1; reflexivity).
      rewrite <- L2 in P3, P4. set (y := with_spectrum E J Iq Is L gesvd vzero vjunk greater of_real vabs vdiv h i j x f (Ok U) cut).
      assert (Hy : SimpleUpdate.environment y = mset (bond_key b0) (Ok [(tt, l')]) (SimpleUpdate.environment x)) by (unfold y, with_spectrum; cbn [SimpleUpdate.environment]; now rewrite SP).
      destruct (new_site l' y Hy i j (sides1 h) u P3 I1 I2 (or_introl E1) (sides1_miss h i j)) as [T1 [n1 [A1 [A2 A3]]]].
      destruct (new_site l' y Hy i2 j2 (sides2 h) v P4 I3 I4 (or_intror E2) (sides2_miss h i j)) as [T2 [n2 [B1 [B2 B3]]]].
      assert (N1 : new1 E J Iq Is L gesvd vzero vjunk greater of_real abs vabs vdiv h i j x f (Ok U) cut = Ok T1) by (unfold new1; fold y; rewrite B, P1; exact A1).
      assert (N2 : new2 E J Iq Is L gesvd vzero vjunk greater of_real abs vabs vdiv h i j x f (Ok U) cut = Ok T2) by (unfold new2; fold y; rewrite B, P1; exact B1).
      rewrite N1, N2, SP, B, P1. clear A1 B1 N1 N2. cbn [bind snd].
      set (x' := SimpleUpdate.mkNetwork _ _).
      assert (S1 : SimpleUpdate.get_site x' (Z.of_nat i) (Z.of_nat j) = Ok (Ok T1)).
      { erewrite (get_table M N); [|reflexivity|exact I1|exact I2]. rewrite at_site_miss by exact E3. now rewrite at_site_hit. }
      assert (S2 : SimpleUpdate.get_site x' (Z.of_nat i2) (Z.of_nat j2) = Ok (Ok T2)).
      { erewrite (get_table M N); [|reflexivity|exact I3|exact I4]. now rewrite at_site_hit. }
      replace (mapM _ _) with (Ok (map (fun p => if pair_eqb p (i, j) then T1 else T2) ps)).
      2: { destruct Hps as [-> | ->]; cbn [map mapM z_site fst snd]; rewrite S1, S2; destruct (pair_spec (i, j) (i, j)) as [_|Q]; try (now destruct Q); destruct (pair_spec (i2, j2) (i, j)) as [Q|_]; try reflexivity; congruence. }
      cbn [bind].
      assert (Hx' : SimpleUpdate.environment x' = mset (bond_key b0) (Ok [(tt, l')]) (SimpleUpdate.environment x)) by reflexivity.
      exists x', wn, (length l'), (at_site (at_site T i j T1) i2 j2 T2). set (T' := at_site (at_site T i j T1) i2 j2 T2).
      assert (K1 : T' i j = T1) by (unfold T'; rewrite at_site_miss by exact E3; apply at_site_hit). assert (K2 : T' i2 j2 = T2) by apply at_site_hit.
      assert (KF : forall i' j', far b0 (i', j') = true -> T' i' j' = T i' j').
      { intros i' j' F. apply far_spec in F as [F1 F2]. unfold T'. rewrite !at_site_miss; [reflexivity| |].
        - intro Q. apply F1. rewrite Q. exact E1.
        - intro Q. apply F2. rewrite Q. exact E2. }
      split; [reflexivity|]. split; [exact P2|]. split; [constructor|split; [lia|split; [exact KF|split; [intros b Hb; exact (find_other l' x' Hx' b Hb)|split; [intro Q; rewrite Hx'; now apply mset_sorted|]]]]].
      + unfold x', lattice_of. cbn [SimpleUpdate.lattice]. unfold table. rewrite map_map. apply map_ext. intro i'. rewrite map_map. apply map_ext. intro j'. unfold T', at_site, f. destruct (Nat.eqb i' i2 && Nat.eqb j' j2), (Nat.eqb i' i && Nat.eqb j' j); reflexivity.
      + intros i' j' Hi' Hj'. apply fits_spin_has. destruct (far b0 (i', j')) eqn:F.
        * rewrite KF by exact F. rewrite slots_far by exact F. now apply HT.
        * unfold far in F. destruct (pair_spec (i', j') (start_of b0)) as [Q|Q]; [|destruct (pair_spec (i', j') (end_of b0)) as [Q'|Q']; [|discriminate F]].
          -- change (start_of b0) with (first_site b0) in Q. rewrite <- E1 in Q. injection Q as -> ->. now rewrite K1.
          -- change (end_of b0) with (second_site b0) in Q'. rewrite <- E2 in Q'. injection Q' as -> ->. now rewrite K2.
      + exact (sound_new l' x' Hx').
      + intros HW Hcut' Hwn. specialize (P5 Hcut' Hwn). specialize (A3 HW). specialize (B3 HW). exists (n0 *r n1 *r n2). intros s Hs. symmetry. unfold applied. cbn [length repeat Sums map fst snd].
        apply (pair_update EA MA MD M N b0 H0 dim (dim_with h i j dim (length l')) (fun i' j' => spin_elements (T i' j') (s i' j')) (fun i' j' => spin_elements (T' i' j') (s i' j'))
          (fun q0 q1 i' j' => spin_elements (T i' j') (spins_put s [(i, j); (i2, j2)] [q0; q1] i' j')) w (weight_on of_real x') d (fun q0 q1 => operator_element 2 U [q0; q1] [s i j; s i2 j2])).
        * intros b Hb. apply in_others in Hb as [_ Hb]. split; [now apply dim_with_miss|]. intro k. now apply (weight_same l' x' Hx').
        * intros i' j' _ F. rewrite (KF i' j' F). split; [reflexivity|]. intros q0 q1 u' v' l0 r0 _ _. f_equal. apply far_spec in F as [F1 F2]. unfold spins_put. cbn [combine find fst snd].
          destruct (pair_spec (i, j) (i', j')) as [Q|_]; [exfalso; apply F1; rewrite <- Q; exact E1|]. destruct (pair_spec (i2, j2) (i', j')) as [Q|_]; [exfalso; apply F2; rewrite <- Q; exact E2|]. reflexivity.
        * intros at_ G1 G2. assert (G : good_others M N h i j dim at_) by (split; assumption). rewrite dim_with_hit.
          destruct (ends h i j) as [EN1 EN2]. unfold pair_value. rewrite EN1, EN2.
          set (F1 := fac i j (sides1 h) false at_). set (F2 := fac i2 j2 (sides2 h) false at_).
          assert (V1 : fac i j (sides1 h) true at_ *r F1 = rone) by (apply fac_inverse; [exact HW|now left|apply sides1_miss|exact G]).
          assert (V2 : fac i2 j2 (sides2 h) true at_ *r F2 = rone) by (apply fac_inverse; [exact HW|now right|apply sides2_miss|exact G]).
          set (IV1 := fac i j (sides1 h) true at_) in *. set (IV2 := fac i2 j2 (sides2 h) true at_) in *.
          assert (Q := P5 (s i j) (s i2 j2) at_ (Hs i j I1 I2) (Hs i2 j2 I3 I4) G).
          assert (QL : forall X Y, F1 *r F2 *r X = F1 *r F2 *r Y -> X = Y).
          { intros X Y H. transitivity (IV1 *r F1 *r (IV2 *r F2) *r X); [rewrite V1, V2; ring|]. transitivity (IV1 *r IV2 *r (F1 *r F2 *r X)); [ring|]. rewrite H. transitivity (IV1 *r F1 *r (IV2 *r F2) *r Y); [ring|]. rewrite V1, V2. ring. }
          apply QL. etransitivity; [|etransitivity; [exact Q|]].
          -- rewrite (Sum_mul_l EA MD), (Sum_mul_l EA MD), L2. apply Sum_ext. intros c Hc. rewrite (set_same bond_eqb bond_spec).
             rewrite (weight_new l' x' Hx') by lia. rewrite <- (L3 c Hc). rewrite <- (A3 (s i j) at_ c (Hs i j I1 I2) G) by lia. rewrite <- (B3 (s i2 j2) at_ c (Hs i2 j2 I3 I4) G) by lia. fold F1 F2.
             change (site_factor _ _ (i, j)) with (se (T' i j) (s i j) (set at_ b0 c) (i, j)). change (site_factor _ _ (i2, j2)) with (se (T' i2 j2) (s i2 j2) (set at_ b0 c) (i2, j2)). rewrite K1, K2. ring.
          -- symmetry. rewrite (Sum_mul_l EA MD). apply Sum_ext. intros q0 Hq0. rewrite (Sum_mul_l EA MD). apply Sum_ext. intros q1 Hq1. rewrite <- MA. f_equal. rewrite (Sum_mul_l EA MD). apply Sum_ext. intros c Hc.
             rewrite (set_same bond_eqb bond_spec). assert (Gs := good_set_own M N h i j H0 dim at_ c G Hc). rewrite (X3 q0 _ Hq0 Gs), (Y3 q1 _ Hq1 Gs).
             change (rprod (map (fun s0 => side_factor of_real x i j s0 false (at_side (set at_ b0 c) i j s0)) four)) with (fac i j four false (set at_ b0 c)).
             change (rprod (map (fun s0 => side_factor of_real x i2 j2 s0 false (at_side (set at_ b0 c) i2 j2 s0)) (sides2 h))) with (fac i2 j2 (sides2 h) false (set at_ b0 c)).
             rewrite fac_four by exact Hc. rewrite (fac_set i2 j2 (sides2 h) false at_ c (sides2_miss h i j)). fold F1 F2.
             assert (M1 : spins_put s [(i, j); (i2, j2)] [q0; q1] i j = q0) by (unfold spins_put; cbn [combine find fst snd]; destruct (pair_spec (i, j) (i, j)); [reflexivity|congruence]).
             assert (M2 : spins_put s [(i, j); (i2, j2)] [q0; q1] i2 j2 = q1).
             { unfold spins_put. cbn [combine find fst snd]. destruct (pair_spec (i, j) (i2, j2)); [congruence|]. destruct (pair_spec (i2, j2) (i2, j2)); [reflexivity|congruence]. }
             change (site_factor _ _ (i, j)) with (se (T i j) (spins_put s [(i, j); (i2, j2)] [q0; q1] i j) (set at_ b0 c) (i, j)).
             change (site_factor _ _ (i2, j2)) with (se (T i2 j2) (spins_put s [(i, j); (i2, j2)] [q0; q1] i2 j2) (set at_ b0 c) (i2, j2)). rewrite M1, M2. ring.
  Qed.
  Theorem bond_applied : forall cut U ps, weights_around M N dim w b0 -> has U (ok d) -> d * d * dim b0 <= cut -> ps = [(i, j); (i2, j2)] \/ ps = [(i2, j2); (i, j)] ->
    unless_reported L gesvd (fun x' => exists dim' T', holds_multiple M N d of_real (applied d [(i, j); (i2, j2)] U (weighted_wave M N dim T w)) dim' T' x') (result cut (map z_site ps) U x).
  Proof.
    intros cut U ps HW HU Hcut Hps. destruct (bond_step cut U ps HU (or_intror Hcut) Hps) as [[msg [-> Q]]|[x' [wn [k [T' [-> [Q1 [Q2 [_ [_ [_ [_ Q3]]]]]]]]]]]]; [exact Q|].
    destruct wn; cbn [unless_reported]; [now apply Q1|]. exists (dim_with h i j dim k), T'. split; [exact Q2|]. now apply Q3.
  Qed.
End Main.
