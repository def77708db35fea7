(** Terms of the simple update on one site; one term after the other. *)
From Coq Require Import String Ascii List Bool Arith ZArith Lia Permutation Ring Setoid Morphisms.
From Verif Require Import Base.Outcome Base.SMap Model.Symmetry Model.Edge Model.Core Model.EdgeOperator Model.Elementwise Model.Contract Model.Misc Model.ShrinkExpand Model.Qr Model.Svd Model.Auxiliaries Model.Spins Model.SimpleTensor
  Spec.Blocks Spec.Relabel Spec.Contract Spec.Plain Spec.Lapack Spec.Grid Spec.SquareLattice Spec.SpinLattice Spec.Factor Spec.Truncate Spec.Spectrum Spec.Svd Spec.ExactState Spec.WeightedLattice Spec.ExactOperator Spec.LocalUpdate Proof.LoopFacts Proof.SumFacts Proof.CoreFacts Proof.ElemFacts Proof.SymmetryFacts Proof.ContractNames Proof.PlainFacts Proof.PlainTools Proof.PlainElem Proof.SumBonds Proof.LineMath Proof.LineTensor Proof.GridSum Proof.LatticeAmplitude Proof.SpinFacts Proof.SpinAmplitude Proof.ExactVector Proof.ExactValue Proof.ExactMain Proof.WeightedFacts Proof.WeightedMain Proof.ExactApply Proof.ExactObserve Proof.BondTools Proof.BondUpdate Proof.PairSum Proof.TermUpdate Proof.TermMain.
From Verif Require Model.Schedule Model.Lazy Model.SimpleUpdate.
Import ListNotations.

Section Site.
  Context {R V : Type} {RR : Scalar R}.
  Notation tens := (tensor unit R).
  Notation net := (SimpleUpdate.network (res tens) (res (list (unit * list V)))).
  Hypotheses (EA : exact_arithmetic R) (MA : associative_product R) (MD : distributive_product R).
  Notation "x *r y" := (rmul x y) (at level 40, left associativity).
  Add Ring scalars89 : (semi_ring EA MA MD).
  Variables (E : @env R) (J : internal) (Iq : qr_names) (Is : svd_names).
  Hypothesis HJ : NoDup [i_contract_0 J; i_contract_1 J; i_contract_2 J].
  Variables (L : qr_lapack R) (gesvd : nat -> nat -> list R -> bool * (list V * list R * list R)).
  Variables (vzero vjunk : V) (greater : V -> V -> bool) (of_real : V -> R) (abs : R -> V) (vabs : V -> V) (vdiv : V -> V -> V).
  Variables (M N d : nat) (dim : bond -> nat).

  Lemma site_update_ok : forall i j t U, has t (spin_slots M N d dim i j) -> fits_operator 1 d U -> exists r, site_update_t E J (Ok t) (Ok U) = Ok r /\ has r (spin_slots M N d dim i j) /\
    forall p u v l r0, p < d -> in_site M N dim i j u v l r0 -> spin_elements r p u v l r0 = Sum d (fun q => spin_elements t q u v l r0 *r operator_element 1 U [q] [p]).
  Proof.
    intros i j t U Ht HU. assert (HO := op_has d [(i, j)] U HU). unfold op_slots in HO. cbn [length seq map app] in HO. unfold site_update_t. cbn [bind].
    destruct (contract_keys EA E J HJ t U _ _ [(phys, in_name 0)] Ht HO) as [c [C1 [C2 C3]]]; try reflexivity. { repeat constructor. }
    rewrite C1. cbn [bind].
    assert (Hc : has c ((out_name 0, Some d) :: site_slots M N dim i j)) by (apply (has_same _ _ _ C2); cbn; repeat constructor).
    assert (Nc : nodupb (map (rename_one [(out_name 0, phys)]) (keys ((out_name 0, Some d) :: site_slots M N dim i j))) = true) by reflexivity.
    exists (edge_rename c [(out_name 0, phys)]). split; [reflexivity|]. split; [apply (has_same _ _ _ (rename_keys_has c _ _ Hc Nc)); cbn; repeat constructor|].
    intros p u v l r0 Hp Hr. unfold spin_elements.
    rewrite (rename_keys_value c _ _ _ [(out_name 0, p); (nm Up 0, u); (nm Down 0, v); (nm Lft 0, l); (nm Rgt 0, r0)] Hc Nc) by (cbn; repeat (constructor; [right; reflexivity|]); constructor).
    destruct Hr as [A1 [A2 [A3 A4]]]. destruct (slot_sizes M N dim i j) as [B1 [B2 [B3 B4]]].
    rewrite C3; [|apply in_slots_all; cbn; repeat constructor; cbn; rewrite ?B1, ?B2, ?B3, ?B4; auto]. cbn [Sums map fst]. replace (slot _ phys) with (Some d) by reflexivity. cbn [size].
    apply Sum_ext. intros q Hq. unfold product. f_equal; [apply (value_keys _ _ _ _ Ht)|apply (value_keys _ _ _ _ HO)]; cbn; repeat (constructor; [right; reflexivity|]); constructor.
  Qed.

  Variables (T : nat -> nat -> tens) (x : net).
  Hypothesis HX : simple_lattice M N d dim T x.
  Notation w := (weight_on of_real x).
  Notation result := (term_result E J Iq Is L gesvd vzero vjunk greater of_real abs vabs vdiv).
  Theorem site_applied : forall cut i j U, i < M -> j < N -> fits_operator 1 d U ->
    exists T' x', result cut [z_site (i, j)] U x = Ok (x', false) /\ simple_lattice M N d dim T' x' /\ SimpleUpdate.environment x' = SimpleUpdate.environment x /\ (forall i' j', (i', j') <> (i, j) -> T' i' j' = T i' j') /\
      forall s, spins_within M N d s -> weighted_wave M N dim T' (weight_on of_real x') s = applied d [(i, j)] U (weighted_wave M N dim T w) s.
  Proof.
    intros cut i j U Hi Hj HU.
    assert (HT : forall i j, i < M -> j < N -> has (T i j) (spin_slots M N d dim i j)) by (intros; apply fits_spin_has; now apply (s_site _ _ _ _ _ _ HX)).
    destruct (site_update_ok i j _ U (HT i j Hi Hj) HU) as [r [R1 [R2 R3]]]. assert (LT := lattice_table M N d dim T x HX).
    exists (at_site T i j r), (SimpleUpdate.mkNetwork (table M N (at_site (fun i j => Ok (T i j)) i j (Ok r))) (SimpleUpdate.environment x)).
    split; [|split; [constructor|split; [reflexivity|split; [intros; now apply at_site_miss|]]]].
    - unfold term_result, single_term_t, SimpleUpdate.single_term, SimpleUpdate.update_single_site, term_message, z_site. cbn [fst snd].
      rewrite (get_table M N x _ i j LT Hi Hj). cbn [bind]. rewrite R1, (set_table M N x _ i j _ LT Hi Hj). cbn [bind mapM fst snd]. erewrite (get_table M N); [|reflexivity|exact Hi|exact Hj]. rewrite at_site_hit. reflexivity.
    - unfold lattice_of. cbn [SimpleUpdate.lattice]. unfold table. rewrite map_map. apply map_ext. intro i'. rewrite map_map. apply map_ext. intro j'. unfold at_site. destruct (Nat.eqb i' i && Nat.eqb j' j); reflexivity.
    - intros i' j' Hi' Hj'. apply fits_spin_has. destruct (site_dec i j i' j') as [Q|Q]; [injection Q as -> ->; now rewrite at_site_hit|]. rewrite at_site_miss by exact Q. now apply HT.
    - exact (s_environment _ _ _ _ _ _ HX).
    - intros s Hs. unfold applied. cbn [length repeat Sums map fst snd]. unfold weighted_wave. change (weight_on of_real _) with w.
      assert (P : Permutation (sites M N) ((i, j) :: filter (fun p => negb (pair_eqb p (i, j))) (sites M N))).
      { apply NoDup_Permutation; [apply NoDup_sites|constructor; [rewrite filter_In; intros [_ Q]; destruct (pair_spec (i, j) (i, j)); [discriminate Q|congruence]|apply NoDup_filter, NoDup_sites]|].
        intro p. cbn [In]. rewrite filter_In. destruct (pair_spec p (i, j)) as [-> |Q]; cbn [negb]; [split; [now left|intros _; apply in_sites_iff; now split]|]. intuition congruence. }
      assert (X : forall f at_, rprod (map (site_factor f at_) (sites M N)) = site_factor f at_ (i, j) *r rprod (map (site_factor f at_) (filter (fun p => negb (pair_eqb p (i, j))) (sites M N)) : list R)).
      { intros f at_. rewrite (rprod_perm EA MA _ _ (Permutation_map (site_factor f at_) P)). reflexivity. }
      assert (SW : forall bs n (F : nat -> (bond -> nat) -> R) p, Over bond_eqb dim bs (fun at_ => Sum n (fun i => F i at_)) p = Sum n (fun i => Over bond_eqb dim bs (F i) p)).
      { induction bs as [|b bs IH]; intros n F p; [reflexivity|]. rewrite (Over_cons bond_eqb dim). transitivity (Sum (dim b) (fun k => Sum n (fun i => Over bond_eqb dim bs (F i) (set bond_eqb p b k)))).
        - apply Sum_ext. intros k _. apply IH.
        - rewrite (Sum_swap EA). apply Sum_ext. intros i0 _. now rewrite (Over_cons bond_eqb dim). }
      transitivity (Over bond_eqb dim (bonds M N) (fun at_ => Sum d (fun q => operator_element 1 U [q] [s i j] *r (rprod (map (site_factor (fun i' j' => spin_elements (T i' j') (spins_put s [(i, j)] [q] i' j')) at_) (sites M N)) *r rprod (map (fun b => w b (at_ b)) (bonds M N))))) (fun _ => 0)).
      + apply (Over_ext_range bond_eqb bond_spec); [apply NoDup_bonds|]. intros at_ Q1 Q2. rewrite X.
        assert (G : good M N dim at_) by (split; assumption).
        change (site_factor _ at_ (i, j)) with (spin_elements (at_site T i j r i j) (s i j) (above at_ i j) (at_ (Below i j)) (before at_ i j) (at_ (Right_of i j))). rewrite at_site_hit, R3; [|now apply Hs|now apply good_site].
        rewrite MA, (Sum_mul_r EA MD). apply Sum_ext. intros q Hq. rewrite X.
        change (site_factor (fun i' j' => spin_elements (T i' j') (spins_put s [(i, j)] [q] i' j')) at_ (i, j)) with (spin_elements (T i j) (spins_put s [(i, j)] [q] i j) (above at_ i j) (at_ (Below i j)) (before at_ i j) (at_ (Right_of i j))).
        replace (spins_put s [(i, j)] [q] i j) with q by (unfold spins_put; cbn [combine find fst snd]; destruct (pair_spec (i, j) (i, j)); [reflexivity|congruence]).
        replace (map (site_factor (fun i' j' => spin_elements (at_site T i j r i' j') (s i' j')) at_) (filter (fun p => negb (pair_eqb p (i, j))) (sites M N)))
          with (map (site_factor (fun i' j' => spin_elements (T i' j') (spins_put s [(i, j)] [q] i' j')) at_) (filter (fun p => negb (pair_eqb p (i, j))) (sites M N))).
        { ring. }
        apply map_ext_in. intros [i' j'] Hp. apply filter_In in Hp as [_ Hp]. destruct (pair_spec (i', j') (i, j)) as [Q|Q]; [discriminate Hp|]. cbn [site_factor]. rewrite at_site_miss by exact Q.
        replace (spins_put s [(i, j)] [q] i' j') with (s i' j'); [reflexivity|]. unfold spins_put. cbn [combine find fst snd]. destruct (pair_spec (i, j) (i', j')); [congruence|reflexivity].
      + rewrite SW. apply Sum_ext. intros q Hq. rewrite <- (Over_mul_l EA MD bond_eqb dim). apply (ea_mul_comm _ EA).
  Qed.
End Site.

Section Terms.
  Context {R V : Type} {RR : Scalar R}.
  Notation tens := (tensor unit R).
  Notation net := (SimpleUpdate.network (res tens) (res (list (unit * list V)))).
  Hypotheses (EA : exact_arithmetic R) (MA : associative_product R) (MD : distributive_product R) (DV : dividing R).
  Variables (E : @env R) (J : internal) (Iq : qr_names) (Is : svd_names).
  Hypotheses (HJ : NoDup [i_contract_0 J; i_contract_1 J; i_contract_2 J]) (HN : own_names Iq Is).
  Variables (L : qr_lapack R) (gesvd : nat -> nat -> list R -> bool * (list V * list R * list R)).
  Variables (vzero vjunk : V) (greater : V -> V -> bool) (of_real : V -> R) (abs : R -> V) (vabs : V -> V) (vdiv : V -> V -> V).
  Hypotheses (HL : qr_sound L) (HS : svd_sound of_real vzero greater gesvd) (HV : modulus vzero greater of_real abs) (HR : real_division vzero greater of_real vabs vdiv).
  Variables (M N d cut : nat).
  Notation result := (term_result E J Iq Is L gesvd vzero vjunk greater of_real abs vabs vdiv).
  Notation holds := (holds_multiple M N d of_real).

  Lemma reported_mono : forall (A : Type) (P Q : A -> Prop) (r : res (A * bool)), (forall a, P a -> Q a) -> unless_reported L gesvd P r -> unless_reported L gesvd Q r.
  Proof. intros A P Q [[a [|]]|[]| |] H; cbn; auto. Qed.
  Lemma holds_applied : forall f g ps U dim T (x : net) c, (forall s, spins_within M N d s -> f s = rmul c (g s)) -> holds (applied d ps U g) dim T x -> holds (applied d ps U f) dim T x.
  Proof.
    intros f g ps U dim T x c F [H [c' C]]. split; [exact H|]. exists (rmul c c'). intros s Hs. rewrite (applied_linear EA M N d MA MD ps U c f g F s Hs), (C s Hs). symmetry. apply MA.
  Qed.

  Theorem bond_both : forall (b : bond) (U : tens) f dim T x ps, In b (bonds M N) -> fits_operator 2 d U -> holds f dim T x -> weights_around M N dim (weight_on of_real x) b -> d * d * dim b <= cut ->
    ps = [first_site b; second_site b] \/ ps = [second_site b; first_site b] ->
    unless_reported L gesvd (fun x' => exists dim' T', holds (applied d [first_site b; second_site b] U f) dim' T' x') (result cut (map z_site ps) U x).
  Proof.
    intros b U f dim T x ps Hb HU [HX [c F]] HW Hc Hps. assert (HO := op_has d [first_site b; second_site b] U HU).
    apply (reported_mono _ (fun x' => exists dim' T', holds (applied d [first_site b; second_site b] U (weighted_wave M N dim T (weight_on of_real x))) dim' T' x')).
    { intros x' [dim' [T' H]]. exists dim', T'. now apply (holds_applied f (weighted_wave M N dim T (weight_on of_real x)) _ _ _ _ _ c). }
    destruct b as [i j|i j].
    - exact (bond_applied EA MA MD DV E J Iq Is HJ HN L gesvd vzero vjunk greater of_real abs vabs vdiv HL HS HV HR M N d true i j Hb dim T x HX cut U ps HW HO Hc Hps).
    - exact (bond_applied EA MA MD DV E J Iq Is HJ HN L gesvd vzero vjunk greater of_real abs vabs vdiv HL HS HV HR M N d false i j Hb dim T x HX cut U ps HW HO Hc Hps).
  Qed.
  Theorem bond_term : forall (b : bond) (U : tens) f dim T x, In b (bonds M N) -> fits_operator 2 d U -> holds f dim T x -> weights_around M N dim (weight_on of_real x) b -> d * d * dim b <= cut ->
    unless_reported L gesvd (fun x' => exists dim' T', holds (applied d [first_site b; second_site b] U f) dim' T' x') (result cut (map z_site [first_site b; second_site b]) U x).
  Proof. intros. apply (bond_both b U f dim T x); auto. Qed.
  Theorem bond_reversed : forall (b : bond) (U : tens) f dim T x, In b (bonds M N) -> fits_operator 2 d U -> holds f dim T x -> weights_around M N dim (weight_on of_real x) b -> d * d * dim b <= cut ->
    unless_reported L gesvd (fun x' => exists dim' T', holds (applied d [first_site b; second_site b] U f) dim' T' x') (result cut (map z_site [second_site b; first_site b]) U x).
  Proof. intros. apply (bond_both b U f dim T x); auto. Qed.
  Theorem site_term : forall (p : nat * nat) (U : tens) f dim T x, fst p < M -> snd p < N -> fits_operator 1 d U -> holds f dim T x ->
    exists T' x', result cut (map z_site [p]) U x = Ok (x', false) /\ holds (applied d [p] U f) dim T' x' /\ SimpleUpdate.environment x' = SimpleUpdate.environment x.
  Proof.
    intros [i j] U f dim T x Hi Hj HU [HX [c F]]. destruct (site_applied EA MA MD E J Iq Is HJ L gesvd vzero vjunk greater of_real abs vabs vdiv M N d dim T x HX cut i j U Hi Hj HU) as [T' [x' [A1 [A2 [A3 [_ A4]]]]]].
    exists T', x'. split; [exact A1|]. split; [|exact A3]. split; [exact A2|]. exists c. intros s Hs. rewrite (A4 s Hs). now apply (applied_linear EA M N d MA MD).
  Qed.
  Theorem all_terms : forall terms f dim T x x', holds f dim T x -> all_updated M N d cut of_real (fun ps U x => result cut (map z_site ps) U x) terms x x' ->
    exists dim' T', holds (applied_all d terms f) dim' T' x'.
  Proof.
    intros terms f dim T x x' H A. revert f dim T H. induction A as [x|ps U terms x x1 x2 P Hs A IH]; intros f dim T H; [now exists dim, T|]. cbn [applied_all].
    destruct P as [[p [-> [Hi [Hj HU]]]]|[b [-> [Hb [HU HF]]]]].
    - destruct (site_term p U f dim T x Hi Hj HU H) as [T' [y [Y1 [Y2 _]]]]. rewrite Y1 in Hs. injection Hs as ->. exact (IH _ _ _ Y2).
    - destruct (HF dim T (proj1 H)) as [C W]. assert (X := bond_term b U f dim T x Hb HU H W C). rewrite Hs in X. destruct X as [dim' [T' X]]. exact (IH _ _ _ X).
  Qed.
End Terms.
