(** Exact and sampling lattices made from simple update lattices. *)
From Coq Require Import String Ascii List Bool Arith ZArith Lia Permutation.
From Verif Require Import Base.Outcome Base.SMap Model.Symmetry Model.Edge Model.Core Model.EdgeOperator Model.Elementwise Model.Contract Model.Misc Model.ShrinkExpand Model.Qr Model.Svd Model.Auxiliaries Model.Spins Model.SimpleTensor Model.Exact
  Spec.Blocks Spec.Relabel Spec.Contract Spec.Plain Spec.Lapack Spec.Grid Spec.SquareLattice Spec.SpinLattice Spec.Factor Spec.Truncate Spec.Spectrum Spec.Svd Spec.ExactState Spec.WeightedLattice Proof.LoopFacts Proof.SumFacts Proof.CoreFacts Proof.ElemFacts Proof.ContractNames Proof.PlainFacts Proof.PlainTools Proof.PlainElem Proof.SumBonds Proof.GridSum Proof.LatticeAmplitude Proof.SpinFacts Proof.SpinAmplitude Proof.ExactVector Proof.ExactValue Proof.ExactMain Proof.WeightedFacts.
From Verif Require Model.Schedule Model.SimpleUpdate.
Import ListNotations.

Section Products.
  Context {R : Type} {RR : Scalar R}.
  Hypotheses (EA : exact_arithmetic R) (MA : associative_product R).
  Lemma rprod_mul : forall (A : Type) (f g : A -> R) l, rprod (map (fun x => rmul (f x) (g x)) l) = rmul (rprod (map f l)) (rprod (map g l)).
  Proof.
    intros A f g. induction l as [|x l IH]; cbn [map rprod fold_right]; [symmetry; apply (mul_1_r EA)|]. unfold rprod in IH. rewrite IH. rewrite !MA. f_equal. apply (mul_swap EA MA).
  Qed.
  Lemma rprod_ones : forall (A : Type) (f : A -> R) l, (forall x, In x l -> f x = rone) -> rprod (map f l) = rone.
  Proof. intros A f. induction l as [|x l IH]; intro H; [reflexivity|]. cbn [map rprod fold_right]. rewrite (H x (or_introl eq_refl)). unfold rprod in IH. rewrite IH by (intros; apply H; now right). apply (mul_1_r EA). Qed.
  Lemma rprod_filter : forall (A : Type) (f : A -> R) (p : A -> bool) l, (forall x, In x l -> p x = false -> f x = rone) -> rprod (map f l) = rprod (map f (filter p l)).
  Proof.
    intros A f p. induction l as [|x l IH]; intro H; [reflexivity|]. cbn [map rprod fold_right filter]. unfold rprod in IH. rewrite IH by (intros; apply H; auto; now right).
    destruct (p x) eqn:P; [reflexivity|]. rewrite (H x (or_introl eq_refl) P). rewrite (ea_mul_comm _ EA). apply (mul_1_r EA).
  Qed.
  Lemma rprod_flat : forall (A B : Type) (f : B -> R) (h : A -> list B) l, rprod (map f (flat_map h l)) = rprod (map (fun x => rprod (map f (h x))) l).
  Proof. intros A B f h. induction l as [|x l IH]; [reflexivity|]. cbn [flat_map map]. rewrite map_app, (rprod_app EA MA), IH. reflexivity. Qed.

  (** the bonds below and to the right of every site are all bonds *)
  Definition own_bonds (ij : nat * nat) : list bond := [Below (fst ij) (snd ij); Right_of (fst ij) (snd ij)].
  Definition start_of (b : bond) : nat * nat := match b with Right_of i j | Below i j => (i, j) end.
  Lemma NoDup_own : forall l, NoDup l -> NoDup (flat_map own_bonds l).
  Proof.
    induction l as [|x l IH]; intro H; [constructor|]. inversion H as [|? ? Hn Hl]; subst. cbn [flat_map].
    assert (G : forall b, In b (own_bonds x) -> ~ In b (flat_map own_bonds l)).
    { intros b Hb Q. apply in_flat_map in Q as [y [Hy Q]]. apply Hn. replace x with y; [exact Hy|]. destruct x, y. cbn in Hb, Q.
      destruct Hb as [<-|[<-|[]]]; destruct Q as [Q|[Q|[]]]; congruence. }
    cbn [own_bonds app]. constructor; [|constructor; [|now apply IH]].
    - intros [Q|Q]; [discriminate|]. apply (G _ (or_introl eq_refl) Q).
    - apply G. right. now left.
  Qed.
  Lemma own_all : forall M N, Permutation (filter (inner M N) (flat_map own_bonds (sites M N))) (bonds M N).
  Proof.
    intros M N. apply NoDup_Permutation.
    - apply NoDup_filter, NoDup_own, NoDup_sites.
    - apply NoDup_bonds.
    - intro b. rewrite filter_In, in_bonds. split; [tauto|]. intro H. split; [|exact H]. apply in_flat_map. exists (start_of b).
      split; [|destruct b; cbn; auto]. unfold sites. destruct b as [i j|i j]; cbn [start_of]; cbn [inner] in H; apply andb_true_iff in H as [H1 H2]; apply Nat.ltb_lt in H1, H2; apply in_all_sites; lia.
  Qed.
  Lemma bond_weights : forall M N (g : bond -> R), (forall b, inner M N b = false -> g b = rone) ->
    rprod (map (fun ij => rmul (g (Below (fst ij) (snd ij))) (rmul (g (Right_of (fst ij) (snd ij))) rone)) (sites M N)) = rprod (map g (bonds M N)).
  Proof.
    intros M N g H. rewrite <- (rprod_perm EA MA _ _ (Permutation_map g (own_all M N))). rewrite <- rprod_filter by auto. now rewrite rprod_flat.
  Qed.
End Products.

Section Main.
  Context {R V : Type} {RR : Scalar R}.
  Notation tens := (tensor unit R).
  Notation net := (SimpleUpdate.network (res tens) (res (list (unit * list V)))).
  Hypotheses (EA : exact_arithmetic R) (MA : associative_product R) (MD : distributive_product R) (DV : dividing R).
  Variables (E : @env R) (J : internal).
  Hypothesis HJ : NoDup [i_contract_0 J; i_contract_1 J; i_contract_2 J].
  Variables (vzero : V) (greater : V -> V -> bool) (of_real : V -> R) (abs : R -> V).
  Hypothesis HV : modulus vzero greater of_real abs.
  Variables (M N d : nat) (dim : bond -> nat) (T : nat -> nat -> tens) (x : net).
  Hypothesis HX : simple_lattice M N d dim T x.
  Notation w := (weight_on of_real x).

  Lemma sound_x : sound_environment M N dim x.
  Proof. exact (s_environment _ _ _ _ _ _ HX). Qed.
  Lemma no_weight : forall b k, inner M N b = false -> w b k = rone.
  Proof.
    intros b k H. unfold weight_on. destruct (mfind (bond_key b) (SimpleUpdate.environment x)) as [s|] eqn:F; [|reflexivity].
    destruct (sound_x _ _ F) as [b' [l [Hb [Hk _]]]]. apply bond_key_inj in Hk. subst b'. apply in_bonds in Hb. congruence.
  Qed.
  Lemma in_spin_slots : forall i j s u v l r, s < d -> in_site M N dim i j u v l r -> in_slots (spin_slots M N d dim i j) [(phys, s); (nm Up 0, u); (nm Down 0, v); (nm Lft 0, l); (nm Rgt 0, r)].
  Proof.
    intros i j s u v l r Hs [H1 [H2 [H3 H4]]]. destruct (slot_sizes M N dim i j) as [S1 [S2 [S3 S4]]]. rewrite <- S1 in H1. rewrite <- S2 in H2. rewrite <- S3 in H3. rewrite <- S4 in H4.
    apply in_slots_all. cbn [keys spin_slots site_slots map fst]. repeat apply Forall_cons; [left|left|left|left|left|apply Forall_nil]; assumption.
  Qed.
  (** the tensor with the environments below and on the right *)
  Definition is_weighted (i j : nat) (t : tens) : Prop :=
    fits_spin M N dim d i j t /\ forall s u v l r, s < d -> in_site M N dim i j u v l r -> spin_elements t s u v l r = rmul (spin_elements (T i j) s u v l r) (rmul (w (Below i j) v) (rmul (w (Right_of i j) r) rone)).
  Lemma weighted_ok : forall i j, i < M -> j < N -> exists t, weighted_t E of_real x i j (Ok (T i j)) = Ok t /\ is_weighted i j t.
  Proof.
    intros i j Hi Hj. assert (H := proj1 (fits_spin_has M N d dim i j (T i j)) (s_site _ _ _ _ _ _ HX i j Hi Hj)).
    destruct (try_all_has EA MA E of_real M N dim x i j false (spin_slots M N d dim i j) sound_x [SimpleUpdate.SideD; SimpleUpdate.SideR] (T i j) H) as [t [T1 [T2 T3]]].
    { intros e b He Hb Hin. apply in_bonds in Hin. destruct He as [<-|[<-|[]]]; cbn [side_bond] in Hb; injection Hb as <-; cbn [inner] in Hin; apply andb_true_iff in Hin as [I1 I2].
      - change (down_slot M dim i j = Some (dim (Below i j))). unfold down_slot. now rewrite I1.
      - change (right_slot N dim i j = Some (dim (Right_of i j))). unfold right_slot. now rewrite I2. }
    exists t. split; [exact T1|]. split; [now apply fits_spin_has|]. intros s u v l r Hs Hr. unfold spin_elements. rewrite T3 by now apply in_spin_slots. reflexivity.
  Qed.
  Lemma weighted_wave_ok : forall T' s, (forall i j, i < M -> j < N -> is_weighted i j (T' i j)) -> spins_within M N d s -> wave M N dim T' s = weighted_wave M N dim T w s.
  Proof.
    intros T' s HT Hs. unfold wave, psi, weighted_wave.
    rewrite (network_ext_range M N dim EA _ (fun i j u v l r => rmul (spin_elements (T i j) (s i j) u v l r) (rmul (w (Below i j) v) (rmul (w (Right_of i j) r) rone)))).
    - unfold network_sum. apply (Over_ext bond_eqb bond_spec). intros q _.
      rewrite <- (bond_weights EA MA M N (fun b => w b (q b))) by (intros; now apply no_weight). rewrite <- (rprod_mul EA MA). f_equal. apply map_ext. now intros [i j].
    - intros i j u v l r Hi Hj Hr. rewrite Nat2Z.id. apply HT; auto.
  Qed.
  Definition chosen (i j : nat) : tens := match weighted_t E of_real x i j (Ok (T i j)) with Ok t => t | _ => T i j end.
  Lemma chosen_ok : forall i j, i < M -> j < N -> weighted_t E of_real x i j (Ok (T i j)) = Ok (chosen i j) /\ is_weighted i j (chosen i j).
  Proof. intros i j Hi Hj. destruct (weighted_ok i j Hi Hj) as [t [T1 T2]]. unfold chosen. now rewrite T1. Qed.
  Lemma same_function : forall (f g : (nat -> nat -> nat) -> R) v, (forall s, spins_within M N d s -> f s = g s) ->
    (not_zero M N d f -> proportional M N d f v) -> not_zero M N d g -> proportional M N d g v.
  Proof.
    intros f g v H P [s [Hs Hn]]. destruct P as [c Hc]; [exists s; split; [exact Hs|now rewrite (H s Hs)]|]. exists c. intros s' Hs'. rewrite <- (H s' Hs'). now apply Hc.
  Qed.
  (** ** exact lattices *)
  Theorem exact_weighted_ok : exists v, exact_weighted E J vzero greater of_real abs M N x = Ok v /\ exact_state M N d v /\
    (not_zero M N d (weighted_wave M N dim T w) -> proportional M N d (weighted_wave M N dim T w) v).
  Proof.
    destruct (walk_ok EA MA MD DV E J HJ vzero greater of_real abs HV M N d dim chosen ltac:(intros; now apply chosen_ok)
      (fun ij => bind (cell (SimpleUpdate.lattice x) (fst ij) (snd ij)) (weighted_t E of_real x (fst ij) (snd ij)))) as [v [V1 [V2 V3]]].
    - intros i j Hi Hj. cbn [fst snd]. rewrite (s_lattice _ _ _ _ _ _ HX), lookup_site by auto. cbn [bind]. now apply chosen_ok.
    - exists v. split; [|split; [exact V2|]].
      + rewrite <- V1. unfold exact_weighted, walk. apply foldM_ext. intros a ij _. now destruct (cell (SimpleUpdate.lattice x) (fst ij) (snd ij)).
      + apply same_function with (f := wave M N dim chosen); [|exact V3]. intros s Hs. apply weighted_wave_ok; [|exact Hs]. intros; now apply chosen_ok.
  Qed.
  (** ** sampling lattices *)
  Lemma mapM_ok : forall (A B : Type) (f : A -> res B) (g : A -> B) l, (forall a, In a l -> f a = Ok (g a)) -> mapM f l = Ok (map g l).
  Proof. intros A B f g. induction l as [|a l IH]; intro H; [reflexivity|]. cbn [mapM map]. rewrite (H a (or_introl eq_refl)). cbn [bind]. rewrite IH by (intros; apply H; now right). reflexivity. Qed.
  Notation nt := (norm_t vzero greater abs).
  Definition divided (i j : nat) : tens := normal vzero greater of_real abs (chosen i j).
  Lemma sampling_sites_divided : sampling_sites E vzero greater of_real abs M N x = Ok (lattice_of M N divided).
  Proof.
    unfold sampling_sites, lattice_of. apply mapM_ok. intros i Hi. apply in_seq in Hi. apply mapM_ok. intros j Hj. apply in_seq in Hj.
    rewrite (s_lattice _ _ _ _ _ _ HX), lookup_site by lia. cbn [bind]. destruct (chosen_ok i j) as [C1 _]; try lia. rewrite C1. reflexivity.
  Qed.
  Lemma divided_fits : forall i j, i < M -> j < N -> fits_spin M N dim d i j (divided i j) /\
    forall s u v l r, s < d -> in_site M N dim i j u v l r -> spin_elements (divided i j) s u v l r = rdiv (spin_elements (chosen i j) s u v l r) (of_real (nt (chosen i j))).
  Proof.
    intros i j Hi Hj. destruct (chosen_ok i j Hi Hj) as [_ [C _]]. apply fits_spin_has in C.
    destruct (transform_has (chosen i j) _ (fun y => rdiv y (of_real (nt (chosen i j)))) C) as [D1 D2]. split; [now apply fits_spin_has|].
    intros s u v l r Hs Hr. unfold spin_elements, divided, normal. rewrite D2; [reflexivity|]. now apply in_spin_slots.
  Qed.
  (** a tensor that is zero makes the wave function zero *)
  Lemma rprod_zero : forall (A : Type) (f : A -> R) l y, In y l -> f y = rzero -> rprod (map f l) = rzero.
  Proof.
    intros A f. induction l as [|z l IH]; intros y Hy Hf; [destruct Hy|]. cbn [map rprod fold_right]. destruct Hy as [->|Hy].
    - rewrite Hf. apply (ea_mul_0 _ EA).
    - unfold rprod in IH. rewrite (IH y Hy Hf). rewrite (ea_mul_comm _ EA). apply (ea_mul_0 _ EA).
  Qed.
  Lemma Over_zero : forall bs p, Over bond_eqb dim bs (fun _ => rzero : R) p = rzero.
  Proof. induction bs as [|b bs IH]; intro p; [reflexivity|]. rewrite (Over_cons bond_eqb dim). transitivity (Sum (dim b) (fun _ => rzero : R)); [unfold Sum; f_equal; apply map_ext; intro; apply IH|apply (Sum_zero EA)]. Qed.
  Lemma in_sites : forall i j, In (i, j) (sites M N) <-> i < M /\ j < N.
  Proof. intros. apply in_all_sites. Qed.
  Lemma zero_site : forall i j s, i < M -> j < N -> spins_within M N d s -> (forall a, in_slots (spin_slots M N d dim i j) a -> value (chosen i j) a = rzero) -> wave M N dim chosen s = rzero.
  Proof.
    intros i j s Hi Hj Hs Z. unfold wave, psi.
    rewrite (network_ext_range M N dim EA _ (fun i' j' u v l r => if Nat.eqb i' i && Nat.eqb j' j then rzero else spin_elements (chosen i' j') (s i' j') u v l r)).
    - unfold network_sum. transitivity (Over bond_eqb dim (bonds M N) (fun _ => rzero : R) (fun _ => 0)); [|apply Over_zero]. apply (Over_ext bond_eqb bond_spec). intros q _.
      apply (rprod_zero _ _ _ (i, j)); [now apply in_sites|]. cbn [site_factor]. now rewrite !Nat.eqb_refl.
    - intros i' j' u v l r Hi' Hj' Hr. rewrite Nat2Z.id. destruct (Nat.eqb i' i && Nat.eqb j' j) eqn:Q; [|reflexivity]. apply andb_true_iff in Q as [Q1 Q2]. apply Nat.eqb_eq in Q1, Q2. subst.
      unfold spin_elements. apply Z. apply in_spin_slots; auto.
  Qed.
  Lemma norms_or_zero : forall l : list (nat * nat), (forall ij, In ij l -> fst ij < M /\ snd ij < N) ->
    (forall ij, In ij l -> of_real (nt (chosen (fst ij) (snd ij))) <> rzero) \/ exists i j, i < M /\ j < N /\ forall a, in_slots (spin_slots M N d dim i j) a -> value (chosen i j) a = rzero.
  Proof.
    induction l as [|[i j] l IH]; intro H; [left; intros ? []|]. destruct (H (i, j) (or_introl eq_refl)) as [Hi Hj]. cbn [fst snd] in Hi, Hj.
    destruct (chosen_ok i j Hi Hj) as [_ [C _]]. apply fits_spin_has in C.
    destruct (norm_or_zero vzero greater of_real abs HV (chosen i j) _ C) as [G|G]; [|right; eauto].
    destruct IH as [IH|IH]; [intros; apply H; now right| |now right]. left. intros ij [<-|Q]; [exact G|now apply IH].
  Qed.
  Theorem sampling_ok : exists T', sampling_sites E vzero greater of_real abs M N x = Ok (lattice_of M N T') /\ (forall i j, i < M -> j < N -> fits_spin M N dim d i j (T' i j)) /\
    (not_zero M N d (weighted_wave M N dim T w) -> exists c, forall s, spins_within M N d s -> weighted_wave M N dim T w s = rmul c (wave M N dim T' s)).
  Proof.
    exists divided. split; [apply sampling_sites_divided|]. split; [intros; now apply divided_fits|]. intros [s0 [Hs0 Hn]].
    set (c := rprod (map (fun ij => of_real (nt (chosen (fst ij) (snd ij)))) (sites M N))). exists c. intros s Hs.
    assert (CW : forall s, spins_within M N d s -> weighted_wave M N dim T w s = wave M N dim chosen s) by (intros s' Hs'; symmetry; apply weighted_wave_ok; [intros; now apply chosen_ok|exact Hs']).
    rewrite CW by exact Hs. destruct (norms_or_zero (sites M N)) as [G|[i [j [Hi [Hj Z]]]]].
    { intros [i j] Q. now apply in_sites in Q. }
    - unfold wave, psi.
      rewrite (network_ext_range M N dim EA _ (fun i j u v l r => rmul (of_real (nt (chosen i j))) (spin_elements (divided i j) (s i j) u v l r))).
      + unfold network_sum. rewrite (Over_mul_l EA MD bond_eqb dim (bonds M N) c). apply (Over_ext bond_eqb bond_spec). intros q _. unfold c. rewrite <- (rprod_mul EA MA).
        f_equal. apply map_ext. intros [i j]. cbn [site_factor fst snd]. now rewrite Nat2Z.id.
      + intros i j u v l r Hi Hj Hr. rewrite Nat2Z.id. destruct (divided_fits i j Hi Hj) as [_ D]. rewrite D by auto. rewrite (ea_mul_comm _ EA). symmetry. apply DV.
        apply (G (i, j)). now apply in_sites.
    - exfalso. apply Hn. rewrite CW by exact Hs0. exact (zero_site i j s0 Hi Hj Hs0 Z).
  Qed.
End Main.
