(** The elements of the vector of an exact lattice. *)
From Coq Require Import String Ascii List Bool Arith ZArith Lia Permutation.
From Verif Require Import Base.Outcome Base.SMap Model.Symmetry Model.Edge Model.Core Model.EdgeOperator Model.Elementwise Model.Contract Model.Misc Model.ShrinkExpand Model.Qr Model.Svd Model.Auxiliaries Model.Spins Model.SimpleTensor Model.Exact
  Spec.Blocks Spec.Relabel Spec.Contract Spec.Plain Spec.Lapack Spec.Grid Spec.SquareLattice Spec.SpinLattice Spec.Factor Spec.Truncate Spec.Spectrum Spec.Svd Proof.LoopFacts Proof.SumFacts Proof.CoreFacts Proof.ElemFacts Proof.ContractNames Proof.PlainFacts Proof.PlainTools Proof.PlainElem Proof.SumBonds Proof.GridSum Proof.LatticeAmplitude Proof.SpinFacts Proof.SpinAmplitude Proof.ExactVector.
Import ListNotations.

Section Value.
  Context {R V : Type} {RR : Scalar R}.
  Notation tens := (tensor unit R).
  Hypotheses (EA : exact_arithmetic R) (MA : associative_product R) (MD : distributive_product R).
  Variables (E : @env R) (J : internal).
  Hypothesis HJ : NoDup [i_contract_0 J; i_contract_1 J; i_contract_2 J].
  Variables (M N d : nat) (dim : bond -> nat) (T : nat -> nat -> tens).
  Notation Over := (Over bond_eqb dim).
  Notation bset := (SumBonds.set bond_eqb).
  Notation edges_at := (edges_at M N d dim).
  Notation open_down := (open_down M dim).
  Notation open_right := (open_right N dim).
  Notation done := (done N).

  Definition at_spins (s : nat -> nat -> nat) (i j : nat) : nat -> nat -> nat -> nat -> R := spin_elements (T i j) (s i j).
  Definition part (i j : nat) (s : nat -> nat -> nat) (q : bond -> nat) : R := rprod (map (site_factor (at_spins s) q) (done i j)).
  Definition amp (i j : nat) (s : nat -> nat -> nat) (q : bond -> nat) : R := Over (flat_map new_bonds (done i j)) (part i j s) q.

  Lemma factor_at : forall f p q ij, (forall b, p b = q b) -> site_factor f p ij = site_factor f q ij :> R.
  Proof. intros f p q [i j] H. unfold site_factor. rewrite !H. destruct i, j; rewrite ?H; reflexivity. Qed.
  Lemma part_ext : forall i j s, extensional (part i j s).
  Proof. intros i j s p q H. unfold part. f_equal. apply map_ext. intro ij. now apply factor_at. Qed.
  Lemma amp_spins : forall i j s s' q, (forall x y, s x y = s' x y) -> amp i j s q = amp i j s' q.
  Proof.
    intros i j s s' q H. unfold amp. apply (Over_ext bond_eqb bond_spec). intros q' _. unfold part. f_equal. apply map_ext. intros [x y]. unfold site_factor, at_spins. now rewrite H.
  Qed.

  Definition put_first (bs : list bond) (q : bond -> nat) (l : nat) : bond -> nat := match bs with [] => q | b :: _ => bset q b l end.
  Definition size_first (bs : list bond) : nat := match bs with [] => 1 | b :: _ => dim b end.
  Lemma Over_first : forall bs F q, length bs <= 1 -> Over bs F q = Sum (size_first bs) (fun l => F (put_first bs q l)).
  Proof. intros [|b [|c bs]] F q H; cbn [length] in H; [|reflexivity|lia]. cbn [size_first put_first]. now rewrite (Sum_1 EA). Qed.
  Lemma one_left : forall ij, length (left_bond ij) <= 1.
  Proof. intros [i [|j]]; cbn; lia. Qed.
  Lemma one_up : forall ij, length (up_bond ij) <= 1.
  Proof. intros [[|i] j]; cbn; lia. Qed.
  Definition both_put (q : bond -> nat) (i j l u : nat) : bond -> nat := put_first (up_bond (i, j)) (put_first (left_bond (i, j)) q l) u.

  Lemma amp_step : forall i j s q, j < N ->
    amp i (S j) s q = Sum (size_first (left_bond (i, j))) (fun l => Sum (size_first (up_bond (i, j))) (fun u =>
      rmul (amp i j s (both_put q i j l u)) (site_factor (at_spins s) (both_put q i j l u) (i, j)))).
  Proof.
    intros i j s q Hj. set (sf := fun q => site_factor (at_spins s) q (i, j)). set (bd := flat_map new_bonds (done i j)).
    assert (D : forall b, In b bd -> In (end_of b) (done i j)) by (intros b Hb; apply in_flat_map in Hb; destruct Hb as [ij [H1 H2]]; apply (new_end dim) in H2; subst ij; exact H1).
    assert (OO : forall b, (end_of b = (i, j) \/ end_of b = (S i, j) \/ end_of b = (i, S j)) -> ~ In b bd).
    { intros b H Hb. apply D in Hb. destruct H as [H|[H|H]]; rewrite H in Hb; apply in_done in Hb; lia. }
    assert (B : blind bd sf).
    { intros p p' H. unfold sf, site_factor. rewrite (H (Below i j)) by (apply OO; auto). rewrite (H (Right_of i j)) by (apply OO; auto).
      destruct i as [|i']; destruct j as [|j']; try (rewrite (H (Below i' _)) by (apply OO; auto)); try (rewrite (H (Right_of _ j')) by (apply OO; auto)); reflexivity. }
    assert (X : forall q, rmul (amp i j s q) (sf q) = Over bd (part i (S j) s) q).
    { intro q0. rewrite (ea_mul_comm R EA). unfold amp. fold bd. rewrite <- (Over_pull EA MD bond_eqb bond_spec dim bd sf (part i j s) q0 B). apply (Over_ext bond_eqb bond_spec). intros q' _. unfold part at 2. rewrite done_snoc, map_app.
      rewrite (rprod_app EA MA). cbn [map rprod fold_right]. rewrite (mul_1_r EA). apply (ea_mul_comm R EA). }
    transitivity (Over (left_bond (i, j) ++ up_bond (i, j)) (fun q' => rmul (amp i j s q') (sf q')) q).
    - unfold amp at 1. rewrite done_snoc, flat_map_app. cbn [flat_map]. rewrite app_nil_r. fold bd. fold (new_bonds (i, j)).
      rewrite (Over_perm EA bond_eqb bond_spec dim (bd ++ new_bonds (i, j)) (new_bonds (i, j) ++ bd)).
      + rewrite Over_app. apply (Over_ext bond_eqb bond_spec). intros q' _. symmetry. apply X.
      + apply NoDup_app_intro; [apply (NoDup_new dim), NoDup_done; lia| |].
        * pose proof (NoDup_new dim [(i, j)] ltac:(repeat constructor; auto)) as H. cbn [flat_map] in H. now rewrite app_nil_r in H.
        * intros b H1 H2. apply (new_end dim) in H2. apply D in H1. rewrite H2 in H1. apply in_done in H1; lia.
      + apply Permutation_app_comm.
      + apply part_ext.
    - rewrite Over_app, Over_first by apply one_left. apply Sum_ext. intros l _. rewrite Over_first by apply one_up. reflexivity.
  Qed.

  (** ** one site *)
  Hypothesis HT : forall i j, i < M -> j < N -> fits_spin M N dim d i j (T i j).
  Ltac neq := unfold site_name, down_name; cbn; lia.
  Lemma renamed_has : forall i j, i < M -> j < N -> has (edge_rename (T i j) (names_at i j)) (site_edges M N d dim i j).
  Proof.
    intros i j Hi Hj. pose proof (proj1 (fits_spin_has M N d dim i j (T i j)) (HT i j Hi Hj)) as H. eapply has_ext; [apply (rename_has _ _ (names_at i j) H)|].
    - change (NoDup [site_name i j; nm Up 0; down_name j; nm Lft 0; nm Rgt 0]). repeat constructor; cbn [In]; intuition; try (revert H0; neq); try (revert H1; neq); try (revert H2; neq).
    - intro n. reflexivity.
  Qed.
  Lemma renamed_value : forall i j a u v l r, i < M -> j < N ->
    (up_slot dim i j <> None -> index a (nm Up 0) = u) -> (down_slot M dim i j <> None -> index a (down_name j) = v) ->
    (left_slot dim i j <> None -> index a (nm Lft 0) = l) -> (right_slot N dim i j <> None -> index a (nm Rgt 0) = r) ->
    value (edge_rename (T i j) (names_at i j)) a = spin_elements (T i j) (index a (site_name i j)) u v l r.
  Proof.
    intros i j a u v l r Hi Hj H1 H2 H3 H4. pose proof (proj1 (fits_spin_has M N d dim i j (T i j)) (HT i j Hi Hj)) as H.
    unfold spin_elements. apply (rename_value _ _ (names_at i j) a _ H).
    - change (NoDup [site_name i j; nm Up 0; down_name j; nm Lft 0; nm Rgt 0]). repeat constructor; cbn [In]; intuition; try (revert H0; neq); try (revert H5; neq); try (revert H6; neq); try (revert H7; neq).
    - intros n Hn. assert (K := slot_keys _ _ Hn). unfold slot in Hn. cbn in K. destruct K as [<-|[<-|[<-|[<-|[<-|[]]]]]]; cbn in Hn |- *; symmetry; auto.
  Qed.
  Lemma absorb_edges : forall v i j, i < M -> j < N -> has v (edges_at i j) ->
    exists r, contract E J v (edge_rename (T i j) (names_at i j)) (joined j) = Ok r /\ has r (edges_at i (S j)) /\
      forall a, in_slots (edges_at i (S j)) a -> value r a =
        Sum (size (left_slot dim i j)) (fun l => Sum (size (up_slot dim i j)) (fun u =>
          rmul (value v ((nm Rgt 0, l) :: (down_name j, u) :: a)) (value (edge_rename (T i j) (names_at i j)) ((nm Lft 0, l) :: (nm Up 0, u) :: a)))).
  Proof.
    intros v i j Hi Hj Hv. pose proof (renamed_has i j Hi Hj) as Hx.
    assert (S1 : slot (edges_at i j) (nm Rgt 0) = left_slot dim i j) by (unfold slot; now rewrite find_right, open_left).
    assert (S2 : slot (edges_at i j) (down_name j) = up_slot dim i j) by (unfold slot; now rewrite find_down, open_up).
    destruct (contract_has EA E J HJ v (edge_rename (T i j) (names_at i j)) (edges_at i j) (site_edges M N d dim i j) (joined j) Hv Hx) as [r [R1 [R2 R3]]].
    - repeat constructor; cbn [In]; [|tauto]. intros [Q|[]]. revert Q. neq.
    - repeat constructor; cbn [In]; [|tauto]. intros [Q|[]]. discriminate.
    - intros x y [Q|[Q|[]]]; injection Q as <- <-; [rewrite S1|rewrite S2]; reflexivity.
    - intros n H1 H2.
      assert (A : In n (keys (edges_at i j)) /\ n <> nm Rgt 0 /\ n <> down_name j).
      { unfold keys, without in H1. apply in_map_iff in H1. destruct H1 as [[m o] [<- H1]]. apply filter_In in H1. destruct H1 as [H1 H1']. cbn [fst] in *. split; [exact (in_map fst _ _ H1)|].
        apply negb_true_iff in H1'. split; intros ->; rewrite member_true in H1'; cbn [map fst joined In]; auto; discriminate. }
      destruct A as [A [A1 A2]]. apply keys_at in A.
      assert (B : In n [site_name i j; down_name j; nm Rgt 0]).
      { unfold keys, without in H2. apply in_map_iff in H2. destruct H2 as [[m o] [<- H2]]. apply filter_In in H2. destruct H2 as [H2 H2']. cbn [fst] in *. apply negb_true_iff in H2'. apply (in_map fst) in H2.
        cbn [site_edges map fst] in H2. cbn [In] in *. destruct H2 as [<-|[<-|[<-|[<-|[<-|[]]]]]]; auto; rewrite member_true in H2'; try discriminate; cbn [map snd joined In]; auto. }
      destruct B as [<-|[<-|[<-|[]]]]; [|now apply A2|now apply A1].
      destruct A as [[x [y [A Q]]]|[[k [_ Q]]|Q]]; [apply site_name_inj in Q; destruct Q; subst; apply in_done in A; lia|now apply down_not_site in Q|now apply A1].
    - exists r. split; [exact R1|]. split; [eapply has_ext; [exact R2|]; intro n; now apply after_at|].
      intros a Ha. rewrite R3.
      + cbn [joined map fst]. rewrite S1, S2. reflexivity.
      + intro n. destruct (Ha n) as [Q|Q]; rewrite <- after_at in Q by assumption; unfold after_edges in Q; auto.
  Qed.

  (** ** all sites *)
  Definition row_of (i j k : nat) : nat := if k <? j then i else i - 1.
  Definition matches (i j : nat) (a : list (nat * nat)) (q : bond -> nat) : Prop :=
    (forall k, k < N -> open_down i j k <> None -> index a (down_name k) = q (Below (row_of i j k) k)) /\ (open_right i j <> None -> index a (nm Rgt 0) = q (Right_of i (j - 1))).
  Definition spins_at (a : list (nat * nat)) (i j : nat) : nat := index a (site_name i j).
  Definition inv (i j : nat) (v : tens) (c : R) : Prop := forall a q, in_slots (edges_at i j) a -> matches i j a q -> rmul c (value v a) = amp i j (spins_at a) q.
  Definition dead (i j : nat) : Prop := forall a q, in_slots (edges_at i j) a -> matches i j a q -> amp i j (spins_at a) q = rzero.

  Lemma size_left_first : forall i j, size (left_slot dim i j) = size_first (left_bond (i, j)).
  Proof. intros i [|j]; reflexivity. Qed.
  Lemma size_up_first : forall i j, size (up_slot dim i j) = size_first (up_bond (i, j)).
  Proof. intros [|i] j; reflexivity. Qed.
  Lemma in_before : forall i j a l u, i < M -> j < N -> in_slots (edges_at i (S j)) a -> l < size (left_slot dim i j) -> u < size (up_slot dim i j) ->
    in_slots (edges_at i j) ((nm Rgt 0, l) :: (down_name j, u) :: a).
  Proof.
    intros i j a l u Hi Hj Ha Hl Hu n. rewrite !index_cons. destruct (Nat.eqb_spec n (nm Rgt 0)) as [->|A1].
    { left. unfold slot. rewrite find_right, open_left by exact Hj. exact Hl. }
    destruct (Nat.eqb_spec n (down_name j)) as [->|A2]; [left; unfold slot; rewrite find_down, open_up by assumption; exact Hu|].
    destruct (in_dec Nat.eq_dec n (keys (edges_at i j))) as [K|K]; [|right; now apply slot_out]. destruct (Ha n) as [H|H]; apply keys_at in K.
    - left. replace (slot (edges_at i j) n) with (slot (edges_at i (S j)) n); [exact H|]. rewrite <- after_at, after_slot, member_false by (assumption || (cbn [In]; intros [Q|[Q|[]]]; auto)).
      unfold slot at 2. destruct K as [[x [y [K ->]]]|[[k [Hk ->]]|K]]; [now rewrite (find_site _ _ _ _ _ _ _ _ K)|now rewrite (find_down _ _ _ _ _ _ _ Hk)|contradiction].
    - right. rewrite <- after_at, after_slot, member_false in H by (assumption || (cbn [In]; intros [Q|[Q|[]]]; auto)).
      unfold slot. destruct K as [[x [y [K ->]]]|[[k [Hk ->]]|K]]; [now rewrite (find_site _ _ _ _ _ _ _ _ K) in *|now rewrite (find_down _ _ _ _ _ _ _ Hk) in *|contradiction].
  Qed.
  Lemma both_other : forall q i j l u b, end_of b <> (i, j) -> both_put q i j l u b = q b.
  Proof.
    intros q i j l u b H. unfold both_put, left_bond, up_bond. cbn [fst snd]. destruct i as [|i]; destruct j as [|j]; cbn [put_first]; rewrite ?(set_other bond_eqb bond_spec); try reflexivity; intros ->; now apply H.
  Qed.
  Lemma both_left : forall q i j l u, both_put q i (S j) l u (Right_of i j) = l.
  Proof.
    intros. unfold both_put, left_bond, up_bond. cbn [fst snd]. destruct i as [|i]; cbn [put_first]; [now rewrite (set_same bond_eqb bond_spec)|].
    rewrite (set_other bond_eqb bond_spec) by discriminate. now rewrite (set_same bond_eqb bond_spec).
  Qed.
  Lemma both_up : forall q i j l u, both_put q (S i) j l u (Below i j) = u.
  Proof. intros. unfold both_put, up_bond. cbn [fst snd put_first]. now rewrite (set_same bond_eqb bond_spec). Qed.
  Lemma matches_before : forall i j a q l u, i < M -> j < N -> matches i (S j) a q -> matches i j ((nm Rgt 0, l) :: (down_name j, u) :: a) (both_put q i j l u).
  Proof.
    intros i j a q l u Hi Hj [H1 H2]. split.
    - intros k Hk Hs. rewrite !index_cons. rewrite (proj2 (Nat.eqb_neq (down_name k) (nm Rgt 0))) by neq. destruct (Nat.eqb_spec (down_name k) (down_name j)) as [Q|Q].
      + assert (k = j) as -> by (unfold down_name in Q; lia). unfold row_of. rewrite Nat.ltb_irrefl. unfold open_down in Hs. rewrite Nat.ltb_irrefl in Hs. destruct i as [|i]; [congruence|].
        replace (S i - 1) with i by lia. now rewrite both_up.
      + assert (Q' : k <> j) by congruence. rewrite (H1 k Hk) by (now rewrite open_down_other).
        assert (W : row_of i (S j) k = row_of i j k) by (unfold row_of; destruct (Nat.ltb_spec k j), (Nat.ltb_spec k (S j)); lia).
        rewrite W, both_other; [reflexivity|]. cbn [end_of]. intro F. injection F as _ F. contradiction.
    - intro Hs. rewrite index_cons, Nat.eqb_refl. unfold open_right in Hs. destruct j as [|j]; [congruence|]. replace (S j - 1) with j by lia. now rewrite both_left.
  Qed.
  Lemma part_site : forall i j a q l u, i < M -> j < N -> matches i (S j) a q -> l < size (left_slot dim i j) -> u < size (up_slot dim i j) ->
    value (edge_rename (T i j) (names_at i j)) ((nm Lft 0, l) :: (nm Up 0, u) :: a) = site_factor (at_spins (spins_at a)) (both_put q i j l u) (i, j).
  Proof.
    intros i j a q l u Hi Hj [H1 H2] Hl Hu. unfold site_factor, at_spins, spins_at.
    rewrite (renamed_value i j ((nm Lft 0, l) :: (nm Up 0, u) :: a) (match i with 0 => 0 | S i' => both_put q i j l u (Below i' j) end) (both_put q i j l u (Below i j))
      (match j with 0 => 0 | S j' => both_put q i j l u (Right_of i j') end) (both_put q i j l u (Right_of i j)) Hi Hj).
    - f_equal.
    - intro Hs. rewrite !index_cons. cbn [nm Nat.eqb]. destruct i as [|i]; [cbn in Hs; congruence|]. now rewrite both_up.
    - intro Hs. rewrite !index_cons. rewrite (proj2 (Nat.eqb_neq (down_name j) (nm Lft 0))), (proj2 (Nat.eqb_neq (down_name j) (nm Up 0))) by neq.
      rewrite both_other by (cbn [end_of]; intro F; injection F; lia). rewrite (H1 j Hj) by (now rewrite open_down_same). unfold row_of. now rewrite (proj2 (Nat.ltb_lt j (S j))) by lia.
    - intro Hs. rewrite !index_cons. cbn [nm Nat.eqb]. destruct j as [|j]; [cbn in Hs; congruence|]. now rewrite both_left.
    - intro Hs. rewrite !index_cons. cbn [nm Nat.eqb]. rewrite both_other by (cbn [end_of]; intro F; injection F; lia). rewrite H2 by exact Hs. now replace (S j - 1) with j by lia.
  Qed.
  Lemma spins_before : forall j a l u x y, spins_at ((nm Rgt 0, l) :: (down_name j, u) :: a) x y = spins_at a x y.
  Proof.
    intros. unfold spins_at. rewrite !index_cons. rewrite (proj2 (Nat.eqb_neq (site_name x y) (nm Rgt 0))) by neq. rewrite (proj2 (Nat.eqb_neq (site_name x y) (down_name j))) by (apply down_not_site). reflexivity.
  Qed.
  Lemma step_inv : forall v r i j c, i < M -> j < N -> inv i j v c ->
    (forall a, in_slots (edges_at i (S j)) a -> value r a = Sum (size (left_slot dim i j)) (fun l => Sum (size (up_slot dim i j)) (fun u =>
          rmul (value v ((nm Rgt 0, l) :: (down_name j, u) :: a)) (value (edge_rename (T i j) (names_at i j)) ((nm Lft 0, l) :: (nm Up 0, u) :: a))))) -> inv i (S j) r c.
  Proof.
    intros v r i j c Hi Hj I0 Hr a q Ha Hq. rewrite (Hr a Ha), (amp_step i j (spins_at a) q Hj), <- size_left_first, <- size_up_first. rewrite (Sum_mul_l EA MD). apply Sum_ext. intros l Hl.
    rewrite (Sum_mul_l EA MD). apply Sum_ext. intros u Hu. rewrite <- MA. rewrite (I0 _ (both_put q i j l u)) by (now apply in_before || now apply matches_before).
    rewrite (part_site i j a q l u Hi Hj Hq Hl Hu). f_equal. apply amp_spins. now apply spins_before.
  Qed.
  Lemma step_dead : forall i j, i < M -> j < N -> dead i j -> dead i (S j).
  Proof.
    intros i j Hi Hj D a q Ha Hq. rewrite (amp_step i j (spins_at a) q Hj), <- size_left_first, <- size_up_first. rewrite <- (Sum_zero EA (size (left_slot dim i j))). apply Sum_ext. intros l Hl.
    rewrite <- (Sum_zero EA (size (up_slot dim i j))). apply Sum_ext. intros u Hu.
    rewrite <- (amp_spins i j (spins_at ((nm Rgt 0, l) :: (down_name j, u) :: a))) by (now apply spins_before). rewrite (D _ (both_put q i j l u)) by (now apply in_before || now apply matches_before).
    apply (ea_mul_0 R EA).
  Qed.
  Lemma row_matches : forall i a q, matches (S i) 0 a q -> matches i N a q.
  Proof.
    intros i a q [H1 _]. split.
    - intros k Hk Hs. rewrite (H1 k Hk); [f_equal; f_equal; unfold row_of; rewrite (proj2 (Nat.ltb_lt k N)) by lia; cbn; lia|].
      revert Hs. unfold open_down. rewrite (proj2 (Nat.ltb_lt k N)) by lia. auto.
    - intro Hs. exfalso. unfold open_right in Hs. destruct N as [|n]; [congruence|]. unfold right_slot in Hs. rewrite (proj2 (Nat.ltb_ge (1 + n) (S n))) in Hs by lia. congruence.
  Qed.
  Lemma row_in : forall i a, in_slots (edges_at (S i) 0) a -> in_slots (edges_at i N) a.
  Proof. intros i a H n. destruct (H n) as [Q|Q]; rewrite <- row_slots in Q; auto. Qed.
  Lemma row_inv : forall i v c, inv i N v c -> inv (S i) 0 v c.
  Proof. intros i v c H a q Ha Hq. rewrite (H a q) by (now apply row_in || now apply row_matches). unfold amp, part. now rewrite done_row. Qed.
  Lemma row_dead : forall i, dead i N -> dead (S i) 0.
  Proof. intros i H a q Ha Hq. unfold amp, part. rewrite <- done_row. apply (H a q); [now apply row_in|now apply row_matches]. Qed.
End Value.
