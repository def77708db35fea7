(** One term of the simple update. *)
From Coq Require Import String Ascii List Bool Arith ZArith Lia Permutation Ring Setoid Morphisms.
From Verif Require Import Base.Outcome Base.SMap Model.Symmetry Model.Edge Model.Core Model.EdgeOperator Model.Elementwise Model.Contract Model.Misc Model.ShrinkExpand Model.Qr Model.Svd Model.Auxiliaries Model.Spins Model.SimpleTensor
  Spec.Blocks Spec.Relabel Spec.Contract Spec.Plain Spec.Lapack Spec.Grid Spec.SquareLattice Spec.SpinLattice Spec.Factor Spec.Truncate Spec.Spectrum Spec.Svd Spec.ExactState Spec.WeightedLattice Spec.ExactOperator Proof.LoopFacts Proof.SumFacts Proof.CoreFacts Proof.ElemFacts Proof.SymmetryFacts Proof.ContractNames Proof.PlainFacts Proof.PlainTools Proof.PlainElem Proof.SumBonds Proof.LineMath Proof.LineTensor Proof.GridSum Proof.LatticeAmplitude Proof.SpinFacts Proof.SpinAmplitude Proof.ExactVector Proof.ExactValue Proof.ExactMain Proof.WeightedFacts Proof.WeightedMain Proof.ExactApply Proof.BondTools Proof.BondUpdate Proof.PairSum.
From Verif Require Model.Schedule Model.Lazy Model.SimpleUpdate Proof.SimpleUpdateFacts.
Import ListNotations.

(** ** tables read and written with integers *)
Section Tables.
  Context {A B : Type}.
  Notation net := (SimpleUpdate.network A B).
  Lemma lookup_table : forall M N (f : nat -> nat -> A) i j, i < M -> j < N -> SimpleUpdate.lookup (Z.of_nat i) (Z.of_nat j) (table M N f) = Some (f i j).
  Proof.
    intros M N f i j Hi Hj. unfold SimpleUpdate.lookup. replace ((Z.of_nat i <? 0)%Z || (Z.of_nat j <? 0)%Z) with false by (symmetry; apply orb_false_iff; split; apply Z.ltb_ge; lia).
    rewrite !Nat2Z.id. unfold table. rewrite nth_row by exact Hi. now apply nth_row.
  Qed.
  Lemma upd_seq : forall (C : Type) (f g : nat -> C) (h : C -> C) n k s, g (s + k) = h (f (s + k)) -> (forall i, i <> s + k -> g i = f i) -> Lazy.update k h (map f (seq s n)) = map g (seq s n).
  Proof.
    intros C f g h. induction n as [|n IH]; intros k s Hk Ho; [now destruct k|]. destruct k as [|k]; cbn [seq map Lazy.update].
    - rewrite Nat.add_0_r in Hk, Ho. rewrite Hk. f_equal. apply map_ext_in. intros i Hi. apply in_seq in Hi. symmetry. apply Ho. lia.
    - rewrite Ho by lia. f_equal. apply IH; replace (S s + k) with (s + S k) by lia; assumption.
  Qed.
  Lemma store_table : forall M N (f : nat -> nat -> A) i j t, SimpleUpdate.store (Z.of_nat i) (Z.of_nat j) t (table M N f) = table M N (at_site f i j t).
  Proof.
    intros M N f i j t. unfold SimpleUpdate.store. rewrite !Nat2Z.id. unfold table. apply upd_seq; cbn [plus].
    - symmetry. apply upd_seq; cbn [plus]; unfold at_site; rewrite Nat.eqb_refl; cbn [andb]; [now rewrite Nat.eqb_refl|]. intros k Hk. apply Nat.eqb_neq in Hk. now rewrite Hk.
    - intros k Hk. apply map_ext. intro l. unfold at_site. apply Nat.eqb_neq in Hk. now rewrite Hk.
  Qed.
  Lemma get_table : forall M N (x : net) f i j, SimpleUpdate.lattice x = table M N f -> i < M -> j < N -> SimpleUpdate.get_site x (Z.of_nat i) (Z.of_nat j) = Ok (f i j).
  Proof. intros M N x f i j H Hi Hj. unfold SimpleUpdate.get_site. rewrite H, lookup_table by auto. reflexivity. Qed.
  Lemma set_table : forall M N (x : net) f i j t, SimpleUpdate.lattice x = table M N f -> i < M -> j < N ->
    SimpleUpdate.set_site x (Z.of_nat i) (Z.of_nat j) t = Ok (SimpleUpdate.mkNetwork (table M N (at_site f i j t)) (SimpleUpdate.environment x)).
  Proof. intros M N x f i j t H Hi Hj. unfold SimpleUpdate.set_site. rewrite (get_table M N x f i j H Hi Hj). cbn [bind]. now rewrite H, store_table. Qed.
End Tables.

Section Term.
  Context {R V : Type} {RR : Scalar R}.
  Notation tens := (tensor unit R).
  Notation net := (SimpleUpdate.network (res tens) (res (list (unit * list V)))).
  Hypotheses (EA : exact_arithmetic R) (MA : associative_product R) (MD : distributive_product R) (DV : dividing R).
  Notation "x *r y" := (rmul x y) (at level 40, left associativity).
  Add Ring scalars87 : (semi_ring EA MA MD).
  Variables (E : @env R) (J : internal) (Iq : qr_names) (Is : svd_names).
  Hypotheses (HJ : NoDup [i_contract_0 J; i_contract_1 J; i_contract_2 J]) (HN : own_names Iq Is).
  Variables (L : qr_lapack R) (gesvd : nat -> nat -> list R -> bool * (list V * list R * list R)).
  Variables (vzero vjunk : V) (greater : V -> V -> bool) (of_real : V -> R) (abs : R -> V) (vabs : V -> V) (vdiv : V -> V -> V).
  Hypotheses (HL : qr_sound L) (HS : svd_sound of_real vzero greater gesvd) (HV : modulus vzero greater of_real abs).
  Variables (M N d : nat).
  Notation set := (set bond_eqb).

  (** ** elements of a site for indices of the bonds *)
  Definition se (t : tens) (p : nat) (at_ : bond -> nat) (ij : nat * nat) : R := site_factor (fun _ _ => spin_elements t p) at_ ij.
  Definition at_side (at_ : bond -> nat) (i j : nat) (s : SimpleUpdate.side) : nat := match side_bond i j s with Some b => at_ b | None => 0 end.
  Definition good (dim : bond -> nat) (at_ : bond -> nat) : Prop := (forall b, In b (bonds M N) -> at_ b < dim b) /\ forall b, ~ In b (bonds M N) -> at_ b = 0.
  Lemma good_site : forall dim at_ i j, good dim at_ -> i < M -> j < N -> in_site M N dim i j (above at_ i j) (at_ (Below i j)) (before at_ i j) (at_ (Right_of i j)).
  Proof.
    intros dim at_ i j [G1 G2] Hi Hj.
    assert (B : forall b, inner M N b = true -> at_ b < dim b) by (intros b Hb; apply G1; now apply in_bonds).
    assert (Z : forall b, inner M N b = false -> at_ b = 0) by (intros b Hb; apply G2; intro X; apply in_bonds in X; congruence).
    unfold in_site. repeat split.
    - destruct i as [|i]; [cbn; lia|]. cbn [size_up]. apply B. cbn [inner]. apply andb_true_iff. rewrite !Nat.ltb_lt. lia.
    - unfold size_down. destruct (1 + i <? M) eqn:C; [apply B; cbn [inner]; apply andb_true_iff; split; [exact C|now apply Nat.ltb_lt]|]. rewrite Z; [lia|]. cbn [inner]. apply andb_false_iff. now left.
    - destruct j as [|j]; [cbn; lia|]. cbn [size_left]. apply B. cbn [inner]. apply andb_true_iff. rewrite !Nat.ltb_lt. lia.
    - unfold size_right. destruct (1 + j <? N) eqn:C; [apply B; cbn [inner]; apply andb_true_iff; split; [now apply Nat.ltb_lt|exact C]|]. rewrite Z; [lia|]. cbn [inner]. apply andb_false_iff. now right.
  Qed.
  Lemma se_eq : forall t p at_ i j, se t p at_ (i, j) = spin_elements t p (above at_ i j) (at_ (Below i j)) (before at_ i j) (at_ (Right_of i j)).
  Proof. reflexivity. Qed.

  Notation try_all := (SimpleUpdate.try_all (multiple_t E of_real)).
  Theorem try_se : forall dim (x : net) i j l division t, sound_environment M N dim x -> i < M -> j < N -> has t (spin_slots M N d dim i j) ->
    exists r, try_all x (Ok t) (Z.of_nat i) (Z.of_nat j) l division = Ok r /\ has r (spin_slots M N d dim i j) /\
      forall p at_, p < d -> good dim at_ -> se r p at_ (i, j) = se t p at_ (i, j) *r rprod (map (fun s => side_factor of_real x i j s division (at_side at_ i j s)) l).
  Proof.
    intros dim x i j l division t HX Hi Hj Ht.
    destruct (try_all_has EA MA E of_real M N dim x i j division (spin_slots M N d dim i j) HX l t Ht) as [r [R1 [R2 R3]]].
    { intros s b _ Hb Hin. apply in_bonds in Hin. destruct s; cbn [side_bond] in Hb.
      - destruct j; [discriminate|]. injection Hb as <-. reflexivity.
      - destruct i; [discriminate|]. injection Hb as <-. reflexivity.
      - injection Hb as <-. cbn [inner] in Hin. apply andb_true_iff in Hin as [I1 I2]. change (down_slot M dim i j = Some (dim (Below i j))). unfold down_slot. now rewrite I1.
      - injection Hb as <-. cbn [inner] in Hin. apply andb_true_iff in Hin as [I1 I2]. change (right_slot N dim i j = Some (dim (Right_of i j))). unfold right_slot. now rewrite I2. }
    exists r. split; [exact R1|]. split; [exact R2|]. intros p at_ Hp G. rewrite !se_eq. unfold spin_elements. rewrite R3.
    - f_equal. f_equal. apply map_ext. intro s. f_equal. destruct s; unfold at_side; cbn [side_bond]; [destruct j|destruct i| |]; reflexivity.
    - apply in_spin_slots; [exact Hp|]. now apply good_site.
  Qed.

  (** ** weights *)
  Lemma side_weight : forall (x : net) i j s k, side_factor of_real x i j s false k = match side_bond i j s with Some b => weight_on of_real x b k | None => rone end.
  Proof. reflexivity. Qed.
  Lemma side_inverse : forall dim (x : net) i j s k, sound_environment M N dim x -> (forall b, side_bond i j s = Some b -> In b (bonds M N) -> weight_on of_real x b k <> rzero) ->
    side_factor of_real x i j s true k *r side_factor of_real x i j s false k = rone.
  Proof.
    intros dim x i j s k HX H. unfold side_factor. destruct (side_bond i j s) as [b|] eqn:Q; [|apply (mul_1_r EA)]. specialize (H b eq_refl). unfold weight_on in H.
    destruct (mfind (bond_key b) (SimpleUpdate.environment x)) as [sp|] eqn:F; [|apply (mul_1_r EA)].
    destruct (HX _ _ F) as [b' [l [Hb [Hk [-> Hl]]]]]. apply bond_key_inj in Hk. subst b'. cbn [weight]. apply DV. now apply H.
  Qed.

  (** ** the sites at the ends of a bond *)
  Variables (h : bool) (i j : nat).
  Definition b0 : bond := if h then Right_of i j else Below i j.
  Definition i2 : nat := if h then i else S i.
  Definition j2 : nat := if h then S j else j.
  Hypothesis H0 : In b0 (bonds M N).
  Definition sides1 : list SimpleUpdate.side := if h then [SimpleUpdate.SideL; SimpleUpdate.SideU; SimpleUpdate.SideD] else [SimpleUpdate.SideL; SimpleUpdate.SideU; SimpleUpdate.SideR].
  Definition sides2 : list SimpleUpdate.side := if h then [SimpleUpdate.SideU; SimpleUpdate.SideD; SimpleUpdate.SideR] else [SimpleUpdate.SideL; SimpleUpdate.SideD; SimpleUpdate.SideR].
  Lemma ends : start_of b0 = (i, j) /\ end_of b0 = (i2, j2).
  Proof. unfold b0, i2, j2. now destruct h. Qed.
  Lemma inside : i < M /\ j < N /\ i2 < M /\ j2 < N.
  Proof. assert (H := H0). apply in_bonds in H. unfold b0, i2, j2 in *. destruct h; cbn [inner] in H; apply andb_true_iff in H as [A B]; rewrite Nat.ltb_lt in A, B; lia. Qed.
  Lemma sides1_miss : forall s, In s sides1 -> side_bond i j s <> Some b0.
  Proof. unfold sides1, b0. intros s Hs. destruct h; destruct Hs as [<-|[<-|[<-|[]]]]; cbn [side_bond]; [destruct j|destruct i| |destruct j|destruct i|]; try discriminate; intro Q; injection Q; lia. Qed.
  Lemma sides2_miss : forall s, In s sides2 -> side_bond i2 j2 s <> Some b0.
  Proof. unfold sides2, b0, i2, j2. intros s Hs. destruct h; destruct Hs as [<-|[<-|[<-|[]]]]; cbn [side_bond]; [destruct i| | |destruct j| |]; try discriminate; intro Q; injection Q; lia. Qed.
  Lemma at_side_set : forall at_ c i' j' s, side_bond i' j' s <> Some b0 -> at_side (set at_ b0 c) i' j' s = at_side at_ i' j' s.
  Proof. intros at_ c i' j' s H. unfold at_side. destruct (side_bond i' j' s) as [b|]; [|reflexivity]. apply (set_other bond_eqb bond_spec). congruence. Qed.

  Variable dim : bond -> nat.
  Definition dim_with (k : nat) (b : bond) : nat := if bond_eqb b b0 then k else dim b.
  Lemma dim_with_hit : forall k, dim_with k b0 = k.
  Proof. intro k. unfold dim_with. now destruct (bond_spec b0 b0). Qed.
  Lemma dim_with_miss : forall k b, b <> b0 -> dim_with k b = dim b.
  Proof. intros k b H. unfold dim_with. now destruct (bond_spec b b0). Qed.
  (** indices of all other bonds *)
  Definition good_others (at_ : bond -> nat) : Prop := (forall b, In b (others M N b0) -> at_ b < dim b) /\ forall b, ~ In b (bonds M N) -> at_ b = 0.
  Lemma good_set : forall at_ k c, good_others at_ -> c < k -> good (dim_with k) (set at_ b0 c).
  Proof.
    intros at_ k c [G1 G2] Hc. split; intros b Hb.
    - destruct (bond_spec b b0) as [->|Q]; [now rewrite (set_same bond_eqb bond_spec), dim_with_hit|]. rewrite (set_other bond_eqb bond_spec), dim_with_miss by exact Q. apply G1. now apply in_others.
    - rewrite (set_other bond_eqb bond_spec) by (intros ->; now apply Hb). now apply G2.
  Qed.
  Lemma good_dim : forall dim1 dim2 at_, (forall b, dim1 b = dim2 b) -> good dim1 at_ -> good dim2 at_.
  Proof. intros dim1 dim2 at_ H [G1 G2]. split; [|exact G2]. intros b Hb. rewrite <- H. now apply G1. Qed.
  Lemma dim_with_own : forall b, dim_with (dim b0) b = dim b.
  Proof. intro b. unfold dim_with. destruct (bond_spec b b0); congruence. Qed.
  Lemma good_set_own : forall at_ c, good_others at_ -> c < dim b0 -> good dim (set at_ b0 c).
  Proof. intros at_ c G Hc. apply (good_dim (dim_with (dim b0))); [apply dim_with_own|]. now apply good_set. Qed.

  Definition u_slot (i j : nat) : option nat := if h then up_slot dim i j else left_slot dim i j.
  Definition v_slot (i j : nat) : option nat := if h then down_slot M dim i j else right_slot N dim i j.
  Definition l_slot : option nat := if h then left_slot dim i j else up_slot dim i j.
  Definition r_slot : option nat := if h then right_slot N dim i2 j2 else down_slot M dim i2 j2.
  Lemma slots_start : forall dim', (forall b, b <> b0 -> dim' b = dim b) -> forall n, slot (spin_slots M N d dim' i j) n = slot (pk (fr h) d (u_slot i j) (v_slot i j) l_slot (Some (dim' b0))) n.
  Proof.
    intros dim' HD. assert (H := H0). apply in_bonds in H. apply slots_same.
    unfold u_slot, v_slot, l_slot, b0 in *. destruct h; cbn [inner] in H; apply andb_true_iff in H as [A B]; unfold spin_slots, site_slots, pk, fr, up_slot, down_slot, left_slot, right_slot; rewrite ?A, ?B; cbn [fup fdown fleft fright].
    - replace (match i with 0 => None | S i' => Some (dim' (Below i' j)) end) with (match i with 0 => None | S i' => Some (dim (Below i' j)) end) by (destruct i; [reflexivity|rewrite HD by discriminate; reflexivity]).
      replace (match j with 0 => None | S j' => Some (dim' (Right_of i j')) end) with (match j with 0 => None | S j' => Some (dim (Right_of i j')) end) by (destruct j; [reflexivity|rewrite HD by (intro Q; injection Q; lia); reflexivity]).
      rewrite (HD (Below i j)) by discriminate. cbn. repeat constructor.
    - replace (match i with 0 => None | S i' => Some (dim' (Below i' j)) end) with (match i with 0 => None | S i' => Some (dim (Below i' j)) end) by (destruct i; [reflexivity|rewrite HD by (intro Q; injection Q; lia); reflexivity]).
      replace (match j with 0 => None | S j' => Some (dim' (Right_of i j')) end) with (match j with 0 => None | S j' => Some (dim (Right_of i j')) end) by (destruct j; [reflexivity|rewrite HD by discriminate; reflexivity]).
      rewrite (HD (Right_of i j)) by discriminate. cbn. repeat constructor.
  Qed.
  Lemma slots_end : forall dim', (forall b, b <> b0 -> dim' b = dim b) -> forall n, slot (spin_slots M N d dim' i2 j2) n = slot (pk (fr h) d (u_slot i2 j2) (v_slot i2 j2) (Some (dim' b0)) r_slot) n.
  Proof.
    intros dim' HD. apply slots_same.
    unfold u_slot, v_slot, r_slot, b0, i2, j2 in *. destruct h; unfold spin_slots, site_slots, pk, fr, up_slot, down_slot, left_slot, right_slot; cbn [fup fdown fleft fright].
    - replace (match i with 0 => None | S i' => Some (dim' (Below i' (S j))) end) with (match i with 0 => None | S i' => Some (dim (Below i' (S j))) end) by (destruct i; [reflexivity|rewrite HD by discriminate; reflexivity]).
      rewrite (HD (Below i (S j))) by discriminate. rewrite (HD (Right_of i (S j))) by (intro Q; injection Q; lia). cbn. repeat constructor.
    - replace (match j with 0 => None | S j' => Some (dim' (Right_of (S i) j')) end) with (match j with 0 => None | S j' => Some (dim (Right_of (S i) j')) end) by (destruct j; [reflexivity|rewrite HD by discriminate; reflexivity]).
      rewrite (HD (Right_of (S i) j)) by discriminate. rewrite (HD (Below (S i) j)) by (intro Q; injection Q; lia). cbn. repeat constructor.
  Qed.

  (** ** indices of the two sites *)
  Definition ua (at_ : bond -> nat) (i j : nat) : nat := if h then above at_ i j else before at_ i j.
  Definition va (at_ : bond -> nat) (i j : nat) : nat := if h then at_ (Below i j) else at_ (Right_of i j).
  Definition la (at_ : bond -> nat) : nat := if h then before at_ i j else above at_ i j.
  Definition ra (at_ : bond -> nat) : nat := if h then at_ (Right_of i2 j2) else at_ (Below i2 j2).
  Lemma up_range : forall at_ i' j', good_others at_ -> (forall k, i' = S k -> Below k j' <> b0) -> i' < M -> j' < N -> above at_ i' j' < size (up_slot dim i' j').
  Proof.
    intros at_ i' j' [G1 G2] H Hi Hj. destruct i' as [|i']; cbn [above up_slot size]; [lia|]. apply G1. apply in_others. split; [apply in_bonds; cbn [inner]; apply andb_true_iff; rewrite !Nat.ltb_lt; lia|now apply H].
  Qed.
  Lemma left_range : forall at_ i' j', good_others at_ -> (forall k, j' = S k -> Right_of i' k <> b0) -> i' < M -> j' < N -> before at_ i' j' < size (left_slot dim i' j').
  Proof.
    intros at_ i' j' [G1 G2] H Hi Hj. destruct j' as [|j']; cbn [before left_slot size]; [lia|]. apply G1. apply in_others. split; [apply in_bonds; cbn [inner]; apply andb_true_iff; rewrite !Nat.ltb_lt; lia|now apply H].
  Qed.
  Lemma down_range : forall at_ i' j', good_others at_ -> Below i' j' <> b0 -> i' < M -> j' < N -> at_ (Below i' j') < size (down_slot M dim i' j').
  Proof.
    intros at_ i' j' [G1 G2] H Hi Hj. unfold down_slot. destruct (1 + i' <? M) eqn:Q; cbn [size].
    - apply G1. apply in_others. split; [apply in_bonds; cbn [inner]; apply andb_true_iff; split; [exact Q|now apply Nat.ltb_lt]|exact H].
    - rewrite G2; [lia|]. rewrite in_bonds. cbn [inner]. rewrite Q. discriminate.
  Qed.
  Lemma right_range : forall at_ i' j', good_others at_ -> Right_of i' j' <> b0 -> i' < M -> j' < N -> at_ (Right_of i' j') < size (right_slot N dim i' j').
  Proof.
    intros at_ i' j' [G1 G2] H Hi Hj. unfold right_slot. destruct (1 + j' <? N) eqn:Q; cbn [size].
    - apply G1. apply in_others. split; [apply in_bonds; cbn [inner]; apply andb_true_iff; split; [now apply Nat.ltb_lt|exact Q]|exact H].
    - rewrite G2; [lia|]. rewrite in_bonds. cbn [inner]. rewrite Q, andb_false_r. discriminate.
  Qed.
  Lemma ranges : forall at_, good_others at_ ->
    ua at_ i j < size (u_slot i j) /\ va at_ i j < size (v_slot i j) /\ la at_ < size l_slot /\ ua at_ i2 j2 < size (u_slot i2 j2) /\ va at_ i2 j2 < size (v_slot i2 j2) /\ ra at_ < size r_slot.
  Proof.
    intros at_ G. destruct inside as [I1 [I2 [I3 I4]]]. assert (U := up_range at_). assert (L' := left_range at_). assert (D' := down_range at_). assert (R' := right_range at_).
    unfold ua, va, la, ra, u_slot, v_slot, l_slot, r_slot, i2, j2, b0 in *. clear H0. destruct h; repeat split; first [apply U|apply L'|apply D'|apply R']; try assumption; try discriminate; try intros k ->; try discriminate; intro Q; injection Q; lia.
  Qed.
  Lemma se_start : forall t p at_ c A B C D, has t (pk (fr h) d A B C D) -> se t p (set at_ b0 c) (i, j) = pf (fr h) t p (ua at_ i j) (va at_ i j) (la at_) c.
  Proof.
    intros t p at_ c A B C D Ht. rewrite se_eq. assert (X : set at_ b0 c b0 = c) by apply (set_same bond_eqb bond_spec). assert (Y : forall b, b <> b0 -> set at_ b0 c b = at_ b) by (intros; now apply (set_other bond_eqb bond_spec)).
    assert (P : above (set at_ b0 c) i j = above at_ i j) by (unfold above, b0 in *; destruct i; [reflexivity|]; apply Y; destruct h; [discriminate|intro Q; injection Q; lia]).
    assert (P' : before (set at_ b0 c) i j = before at_ i j) by (unfold before, b0 in *; destruct j; [reflexivity|]; apply Y; destruct h; [intro Q; injection Q; lia|discriminate]).
    rewrite P, P'. unfold ua, va, la, spin_elements, pf. unfold b0 in *. destruct h; cbn [fr fup fdown fleft fright].
    - rewrite X, (Y (Below i j)) by discriminate. reflexivity.
    - rewrite X, (Y (Right_of i j)) by discriminate. apply (value_keys _ _ _ _ Ht). cbn. repeat (constructor; [right; reflexivity|]). constructor.
  Qed.
  Lemma se_end : forall t p at_ c A B C D, has t (pk (fr h) d A B C D) -> se t p (set at_ b0 c) (i2, j2) = pf (fr h) t p (ua at_ i2 j2) (va at_ i2 j2) c (ra at_).
  Proof.
    intros t p at_ c A B C D Ht. rewrite se_eq. assert (X : set at_ b0 c b0 = c) by apply (set_same bond_eqb bond_spec). assert (Y : forall b, b <> b0 -> set at_ b0 c b = at_ b) by (intros; now apply (set_other bond_eqb bond_spec)).
    unfold ua, va, ra, spin_elements, pf. unfold b0, i2, j2 in *. destruct h; cbn [fr fup fdown fleft fright].
    - cbn [before]. rewrite X, (Y (Below i (S j))), (Y (Right_of i (S j))) by (try discriminate; intro Q; injection Q; lia).
      replace (above (set at_ (Right_of i j) c) i (S j)) with (above at_ i (S j)) by (unfold above; destruct i; [reflexivity|]; symmetry; apply Y; discriminate). reflexivity.
    - cbn [above]. rewrite X, (Y (Below (S i) j)), (Y (Right_of (S i) j)) by (try discriminate; intro Q; injection Q; lia).
      replace (before (set at_ (Below i j) c) (S i) j) with (before at_ (S i) j) by (unfold before; destruct j; [reflexivity|]; symmetry; apply Y; discriminate).
      apply (value_keys _ _ _ _ Ht). cbn. repeat (constructor; [right; reflexivity|]). constructor.
  Qed.

  Notation parts cut := (bond_parts E J Iq Is L gesvd vzero vjunk greater vabs vdiv cut h).
  Theorem bond_se : forall cut x y U, has x (spin_slots M N d dim i j) -> has y (spin_slots M N d dim i2 j2) -> has U (ok d) -> 0 < cut \/ d * d * dim b0 <= cut ->
    (exists msg, parts cut (Ok x) (Ok y) (Ok U) = Throw (RuntimeError msg) /\ ~ qr_never_fails L) \/
    exists u l v w, parts cut (Ok x) (Ok y) (Ok U) = Ok (u, normal_s vzero greater vabs vdiv [(tt, l)], v, w) /\ (w = true -> ~ svd_never_fails gesvd) /\
      has u (spin_slots M N d (dim_with (length l)) i j) /\ has v (spin_slots M N d (dim_with (length l)) i2 j2) /\ length l <= cut /\
      (d * d * dim b0 <= cut -> w = false -> forall p q at_, p < d -> q < d -> good_others at_ ->
         Sum (length l) (fun c => se u p (set at_ b0 c) (i, j) *r of_real (nth c l vzero) *r se v q (set at_ b0 c) (i2, j2)) =
         Sum d (fun q0 => Sum d (fun q1 => Sum (dim b0) (fun c => se x q0 (set at_ b0 c) (i, j) *r se y q1 (set at_ b0 c) (i2, j2)) *r operator_element 2 U [q0; q1] [p; q]))).
  Proof.
    intros cut x y U Hx Hy HU Hcut. assert (Hx' := has_ext x _ _ Hx (slots_start dim ltac:(auto))). assert (Hy' := has_ext y _ _ Hy (slots_end dim ltac:(auto))).
    destruct (bond_ok EA MA MD E J Iq Is HJ HN L gesvd vzero vjunk greater of_real vabs vdiv HL HS (m_order _ _ _ _ HV) h cut d _ _ _ _ _ _ _ x y U Hx' Hy' HU Hcut) as [Th|[u [l [v [w [P1 [P2 [P3 [P4 [P6 P5]]]]]]]]]]; [now left|right].
    exists u, l, v, w. split; [exact P1|]. split; [exact P2|].
    split; [apply (has_ext u _ _ P3); intro n; rewrite (slots_start (dim_with (length l))), dim_with_hit by (intros; now apply dim_with_miss); reflexivity|].
    split; [apply (has_ext v _ _ P4); intro n; rewrite (slots_end (dim_with (length l))), dim_with_hit by (intros; now apply dim_with_miss); reflexivity|].
    split; [exact P6|]. intros Hk Hw p q at_ Hp Hq G. destruct (ranges at_ G) as [G1 [G2 [G3 [G4 [G5 G6]]]]]. specialize (P5 Hk Hw p q _ _ _ _ _ _ Hp Hq G1 G2 G3 G4 G5 G6).
    etransitivity; [|etransitivity; [exact P5|]].
    - apply Sum_ext. intros c Hc. rewrite (se_start u p at_ c _ _ _ _ P3), (se_end v q at_ c _ _ _ _ P4). reflexivity.
    - apply Sum_ext. intros q0 _. apply Sum_ext. intros q1 _. f_equal. apply Sum_ext. intros c Hc. rewrite (se_start x q0 at_ c _ _ _ _ Hx'), (se_end y q1 at_ c _ _ _ _ Hy'). reflexivity.
  Qed.
End Term.
