(** Contraction of symmetric tensors, bosonic and fermionic. *)
From Coq Require Import String List Bool Arith Lia Sorted Permutation.
From Verif Require Import Base.Outcome Base.SMap Model.Symmetry Model.Edge Model.Core Model.Transpose Model.EdgeOperator Model.Elementwise Model.Contract
  Spec.Blocks Spec.Fuse Spec.Sign Spec.Relabel Spec.Contract Spec.FermiContract Proof.SymmetryFacts Proof.LoopFacts Proof.CoreFacts Proof.ConstructFacts Proof.ElemFacts Proof.OffsetFacts
  Proof.GroupFacts Proof.CopyLoopFacts Proof.TableFacts Proof.EdgeOperatorFacts Proof.EdgeOperatorMain Proof.NamedOperator Proof.TransposeFacts Proof.TransposeTensor Proof.TransposeNames Proof.LegFacts Proof.ScalarOpFacts
  Proof.SumFacts Proof.GemmFacts Proof.RegroupFacts Proof.ContractNames Proof.ContractPlain Proof.TwoLegs Proof.SplitAll Proof.SignFacts Proof.ExchangeFacts.
Import ListNotations.

Local Notation tlegs t := (combine (t_names t) (t_edges t)).

Section Match.
  Context {S : Type} {SS : Sym S} {SL : SymLaws S}.
  Notation entry := (S * nat)%type.

  (** m2 has the segments of m1 with opposite charges *)
  Definition opp (m1 m2 : list entry) : Prop := msorted m1 /\ msorted m2 /\ forall s d, In (s, d) m1 <-> In (sneg s, d) m2.
  Lemma opp_find : forall m1 m2 s, opp m1 m2 -> mfind (sneg s) m2 = mfind s m1.
  Proof.
    intros m1 m2 s [H1 [H2 H]]. destruct (mfind s m1) as [d|] eqn:E1.
    - apply (In_mfind m2); [exact H2|]. apply H. now apply mfind_In.
    - destruct (mfind (sneg s) m2) as [d|] eqn:E2; [|reflexivity]. apply mfind_In in E2. apply H in E2. apply (In_mfind m1) in E2; [congruence|exact H1].
  Qed.
  Lemma absent_dim : forall (maps : list (list entry)) s, present maps s = false -> merged_dim maps s = 0.
  Proof.
    intros maps s H. unfold merged_dim. replace (filter (fun t => eqb (total t) s) (tuples maps)) with (@nil (list entry)); [reflexivity|].
    symmetry. unfold present in H. induction (tuples maps) as [|t ts IH]; [reflexivity|]. cbn [existsb filter] in *. apply orb_false_iff in H as [H1 H2]. rewrite H1. now apply IH.
  Qed.
  Lemma one_present : forall (m : list entry) s, msorted m -> present [m] s = mmem s m.
  Proof. intros m s H. symmetry. apply merged_mem. now apply merged_map_one. Qed.
  Lemma one_dim : forall (m : list entry) s, msorted m -> merged_dim [m] s = match mfind s m with Some d => d | None => 0 end.
  Proof.
    intros m s H. destruct (mfind s m) as [d|] eqn:E.
    - now apply merged_dim_one.
    - apply absent_dim. rewrite one_present by exact H. unfold mmem. now rewrite E.
  Qed.
  Lemma match_facts : forall mc1 mc2 : list (list entry), Forall2 opp mc1 mc2 -> (length mc1 <= 1 \/ forall s : S, sneg s = s) ->
    (forall s, present mc2 (sneg s) = present mc1 s) /\ (forall s, merged_dim mc2 (sneg s) = merged_dim mc1 s) /\
    (forall pt, in_range mc1 pt -> snd (fuse mc2 (map opposite pt)) = snd (fuse mc1 pt)).
  Proof.
    intros mc1 mc2 H [HL|HZ].
    - destruct H as [|m1 m2 l1 l2 Ho H].
      + split; [|split].
        * intro s. unfold present. cbn [tuples existsb]. rewrite !orb_false_r. unfold total. cbn [map].
          destruct (eqb (ssum []) s) eqn:E1.
          -- apply eqb_eq in E1. subst s. unfold ssum. cbn [fold_left]. rewrite sneg_0. apply eqb_refl.
          -- apply eqb_false in E1. apply eqb_false. intro Hc. apply E1. unfold ssum in *. cbn [fold_left] in *. apply sneg_inj. now rewrite sneg_0.
        * intro s. unfold merged_dim. cbn [tuples filter]. unfold total. cbn [map].
          destruct (eqb (ssum []) s) eqn:E1.
          -- apply eqb_eq in E1. subst s. unfold ssum. cbn [fold_left]. rewrite sneg_0, eqb_refl. reflexivity.
          -- apply eqb_false in E1. replace (eqb (ssum []) (sneg s)) with false; [reflexivity|]. symmetry. apply eqb_false. intro Hc. apply E1. unfold ssum in *. cbn [fold_left] in *. apply sneg_inj. now rewrite sneg_0.
        * intros pt Hr. inversion Hr; subst. reflexivity.
      + destruct H; [|simpl in HL; lia]. pose proof (opp_find m1 m2) as Hf. destruct Ho as [S1 [S2 Ho]]. split; [|split].
        * intro s. rewrite !one_present by assumption. unfold mmem. rewrite Hf; [reflexivity|repeat split; auto; apply Ho].
        * intro s. rewrite !one_dim by assumption. rewrite Hf; [reflexivity|repeat split; auto; apply Ho].
        * intros pt Hr. inversion Hr as [|? ? s i d pt' Hin Hi Hr']; subst. inversion Hr'; subst. cbn [map]. rewrite !fuse_one. reflexivity.
    - assert (E : mc2 = mc1).
      { induction H as [|m1 m2 l1 l2 Ho H IH]; [reflexivity|]. f_equal; [|exact IH]. pose proof (fun s => opp_find m1 m2 s Ho) as Hf. destruct Ho as [S1 [S2 _]].
        apply msorted_ext; auto. intro s. rewrite <- (HZ s) at 1. apply Hf. }
      subst mc2. split; [|split]; intros; rewrite ?HZ; try reflexivity. do 2 f_equal. rewrite <- map_id. apply map_ext. intros [s i]. unfold opposite. cbn [fst snd]. now rewrite HZ.
  Qed.
  Lemma opp_range : forall mc1 mc2 pt, Forall2 opp mc1 mc2 -> in_range mc1 pt -> in_range mc2 (map opposite pt).
  Proof.
    intros mc1 mc2 pt H. revert pt. induction H as [|m1 m2 l1 l2 Ho H IH]; intros pt Hr; inversion Hr as [|? ? s i d pt' Hin Hi Hr']; subst; cbn [map]; [constructor|].
    unfold opposite at 1. cbn [fst snd]. econstructor; [apply Ho; exact Hin|exact Hi|now apply IH].
  Qed.
  Lemma opposite_total : forall pt : list entry, total (map opposite pt) = sneg (total pt).
  Proof. intro pt. unfold total. rewrite <- ssum_neg, !map_map. reflexivity. Qed.
End Match.

Section Product.
  Context {S R : Type} {SS : Sym S} {SL : SymLaws S} {RR : Scalar R}.
  Notation entry := (S * nat)%type.
  Hypothesis EA : exact_arithmetic R.

  Definition term_sum (put1 put2 : bool) (m n k : nat) (d1 d2 : list R) (j q : nat) : R :=
    rsum (map (fun x => rmul (nth (at1 put1 m k 0 j x) d1 rzero) (nth (at1 put2 n k 0 q x) d2 rzero)) (seq 0 k)).

  Definition alpha (put1 put2 : bool) (s : S) : R := if is_fermi && xorb put2 (negb put1) && sodd s then ropp rone else rone.
  Lemma block_product : forall put1 put2 m n k al d1 d2 data, length d1 = m * k -> length d2 = n * k -> length data = m * n ->
    exists data', (if negb (Nat.eqb m 0) && negb (Nat.eqb n 0) && negb (Nat.eqb k 0)
                   then gemm put2 (negb put1) n m k al d2 0 (if put2 then k else n) d1 0 (if put1 then k else m) data 0 n
                   else if negb (Nat.eqb m 0) && negb (Nat.eqb n 0) then Ok (map (fun _ => rzero) data) else Ok data) = Ok data' /\ length data' = length data /\
      forall j q, j < m -> q < n -> nth_error data' (j * n + q) = Some (rmul al (term_sum put1 put2 m n k d1 d2 j q)).
  Proof.
    intros put1 put2 m n k al d1 d2 data L1 L2 L.
    destruct (Nat.eqb_spec m 0) as [->|Hm]; [exists data; cbn [negb andb]; split; [reflexivity|]; split; [reflexivity|]; intros; lia|].
    destruct (Nat.eqb_spec n 0) as [->|Hn]; [exists data; cbn [negb andb]; split; [reflexivity|]; split; [reflexivity|]; intros; lia|].
    cbn [negb andb]. destruct (Nat.eqb_spec k 0) as [->|Hk]; cbn [negb andb].
    - exists (map (fun _ => rzero) data). split; [reflexivity|]. split; [apply map_length|]. intros j q Hj Hq. rewrite nth_error_map.
      assert (Datatypes.S j * n <= m * n) by (apply Nat.mul_le_mono_r; lia).
      destruct (nth_error data (j * n + q)) eqn:En; [|apply nth_error_None in En; exfalso; lia]. unfold term_sum. cbn [option_map seq map]. f_equal.
      rewrite (ea_mul_comm _ EA). symmetry. apply (ea_mul_0 _ EA).
    - destruct (gemm_ok put2 (negb put1) n m k al d2 0 (if put2 then k else n) d1 0 (if put1 then k else m) data 0 (fun q j => term_sum put1 put2 m n k d1 d2 j q)) as [c' [E' [L' [P1 _]]]].
      + intros q j Hq Hj. cbv beta. rewrite (gemm_entry_ok EA _ _ k d2 _ _ d1 _ _ q j (fun x => nth (at1 put2 n k 0 q x) d2 rzero) (fun x => nth (at1 put1 m k 0 j x) d1 rzero)).
        * unfold term_sum. f_equal. apply rsum_ext. intros x _. apply (ea_mul_comm _ EA).
        * intros x Hx. replace (0 + _) with (at1 put2 n k 0 q x) by (unfold at1; destruct put2; lia). apply nth_error_nth'. rewrite L2. pose proof (at1_lt put2 1 n k 0 q x Nat.lt_0_1 Hq Hx) as A. now rewrite Nat.mul_1_l in A.
        * intros x Hx. replace (0 + _) with (at1 put1 m k 0 j x) by (unfold at1; destruct put1; cbn [negb]; lia). apply nth_error_nth'. rewrite L1. pose proof (at1_lt put1 1 m k 0 j x Nat.lt_0_1 Hj Hx) as A. now rewrite Nat.mul_1_l in A.
      + lia.
      + exists c'. split; [exact E'|]. split; [exact L'|]. intros j q Hj Hq. rewrite <- (P1 q j Hq Hj). f_equal. lia.
  Qed.

  Lemma Forall2_keys : forall (l l' : list (list S * list R)) (P : list S * list R -> list S * list R -> Prop) k v,
    Forall2 (fun x y => fst y = fst x /\ P x y) l l' -> mfind k l = Some v -> exists v', mfind k l' = Some v' /\ P (k, v) (k, v').
  Proof.
    intros l l' P k v H. induction H as [|[k1 v1] [k2 v2] l l' [E1 HP] H IH]; intro Hf; [discriminate|]. cbn [fst] in E1. subst k2. cbn [mfind] in *.
    destruct (eqb k k1) eqn:E; [|now apply IH]. injection Hf as <-. apply eqb_eq in E. subst k1. eauto.
  Qed.

  Lemma product_ok : forall (put1 put2 : bool) (b1 b2 : list (list S * list R)) (e1 e2 ec : edge S) (mf1 mc1 mf2 : list (list entry)) (junk : R) (C1 C2 : nat), C1 <> C2 ->
    msorted (emap e1) -> msorted (emap e2) ->
    (forall s, mfind s (emap e1) = if present mc1 (sneg s) then if present mf1 s then Some (merged_dim mf1 s) else None else None) ->
    (forall s, mfind s (emap ec) = if present mf1 (sneg s) then if present mc1 s then Some (merged_dim mc1 s) else None else None) ->
    (forall s, mfind s (emap e2) = if present mc1 s then if present mf2 s then Some (merged_dim mf2 s) else None else None) ->
    (forall s, present mf1 s = true -> present mc1 (sneg s) = true ->
       exists data, mfind (if put1 then [s; sneg s] else [sneg s; s]) b1 = Some data /\ length data = merged_dim mf1 s * merged_dim mc1 (sneg s)) ->
    (forall s, present mf2 (sneg s) = true -> present mc1 (sneg s) = true ->
       exists data, mfind (if put2 then [sneg s; s] else [s; sneg s]) b2 = Some data /\ length data = merged_dim mf2 (sneg s) * merged_dim mc1 (sneg s)) ->
    exists p p0 p1 blocks, make_tensor junk [C1; C2] [e1; e2] false = Ok p /\ t_names p = [C1; C2] /\ t_edges p = [p0; p1] /\
      mapM (product_block put1 put2 b1 b2 p0 p1 ec) (t_blocks p) = Ok blocks /\
      wf_tensor (mkTensor (t_names p) (mkCore (t_edges p) blocks)) /\
      (forall s, mfind s (emap p0) = if present mf1 s && present mc1 (sneg s) && present mf2 (sneg s) then Some (merged_dim mf1 s) else None) /\
      (forall s, mfind s (emap p1) = if present mf1 (sneg s) && present mc1 s && present mf2 s then Some (merged_dim mf2 s) else None) /\
      (forall s d1 d2 j q, present mf1 s = true -> present mc1 (sneg s) = true -> present mf2 (sneg s) = true ->
         mfind (if put1 then [s; sneg s] else [sneg s; s]) b1 = Some d1 -> mfind (if put2 then [sneg s; s] else [s; sneg s]) b2 = Some d2 ->
         j < merged_dim mf1 s -> q < merged_dim mf2 (sneg s) ->
         elem (mkCore (t_edges p) blocks) [(s, j); (sneg s, q)] =
           Some (rmul (alpha put1 put2 s) (term_sum put1 put2 (merged_dim mf1 s) (merged_dim mf2 (sneg s)) (merged_dim mc1 (sneg s)) d1 d2 j q))) /\
      earrow p0 = earrow e1 /\ earrow p1 = earrow e2.
  Proof.
    intros put1 put2 b1 b2 e1 e2 ec mf1 mc1 mf2 junk C1 C2 HC S1 S2 F1 Fc F2 D1 D2.
    destruct (make_tensor_ok junk [C1; C2] [e1; e2] false) as [p [M1 [M2 [M3 [M4 M5]]]]].
    { repeat constructor; auto. } { repeat constructor; simpl; intuition. } { reflexivity. }
    rewrite andb_false_r in M5. rewrite <- M4 in M5. unfold maps_of in M4. cbn [map] in M4.
    assert (Hk : map fst (t_blocks p) = map fst (block_list [emap e1; emap e2])) by (rewrite M4; apply junk_keys).
    destruct (two_legs p e1 e2 M2 S1 S2 M5 Hk) as [p0 [p1 [T1 [T2 [T3 T4]]]]].
    assert (G0 : forall s, mfind s (emap p0) = if present mf1 s && present mc1 (sneg s) && present mf2 (sneg s) then Some (merged_dim mf1 s) else None).
    { intro s. rewrite T2. unfold mmem. rewrite F1, F2. destruct (present mc1 (sneg s)), (present mf2 (sneg s)), (present mf1 s); reflexivity. }
    assert (G1 : forall s, mfind s (emap p1) = if present mf1 (sneg s) && present mc1 s && present mf2 s then Some (merged_dim mf2 s) else None).
    { intro s. rewrite T3. unfold mmem. rewrite F1, F2, sneg_invol. destruct (present mc1 s), (present mf2 s), (present mf1 (sneg s)); reflexivity. }
    assert (HB : forall key data, In (key, data) (t_blocks p) -> exists s, key = [s; sneg s] /\ present mf1 s = true /\ present mc1 (sneg s) = true /\ present mf2 (sneg s) = true /\
                   length data = merged_dim mf1 s * merged_dim mf2 (sneg s)).
    { intros key data HI. assert (HI2 : In key (map fst (t_blocks p))) by (apply in_map_iff; exists (key, data); auto).
      rewrite Hk in HI2. apply two_block_keys in HI2 as [s [-> [A B]]]; auto. exists s. split; [reflexivity|].
      unfold mmem in A, B. rewrite F1 in A. rewrite F2 in B. destruct (present mc1 (sneg s)) eqn:X1; [|discriminate]. destruct (present mf1 s) eqn:X2; [|discriminate].
      destruct (present mf2 (sneg s)) eqn:X3; [|discriminate]. repeat split.
      destruct (T4 s (merged_dim mf1 s) (merged_dim mf2 (sneg s))) as [d' [Y1 [Y2 _]]].
      { now rewrite F1, X1, X2. } { now rewrite F2, X1, X3. }
      apply (In_mfind_nodup (t_blocks p)) in HI; [congruence|]. destruct M2 as [Wc _ _]. apply msorted_nodup. apply (wf_blocks_sorted (t_core p) Wc). }
    pose (P := fun x y : list S * list R => length (snd y) = length (snd x) /\
       forall s d1 d2, fst x = [s; sneg s] -> mfind (if put1 then [s; sneg s] else [sneg s; s]) b1 = Some d1 -> mfind (if put2 then [sneg s; s] else [s; sneg s]) b2 = Some d2 ->
         forall j q, j < merged_dim mf1 s -> q < merged_dim mf2 (sneg s) ->
         nth_error (snd y) (j * merged_dim mf2 (sneg s) + q) = Some (rmul (alpha put1 put2 s) (term_sum put1 put2 (merged_dim mf1 s) (merged_dim mf2 (sneg s)) (merged_dim mc1 (sneg s)) d1 d2 j q))).
    destruct (mapM_Forall2 _ _ (product_block put1 put2 b1 b2 p0 p1 ec) (fun x y => fst y = fst x /\ P x y) (t_blocks p)) as [blocks [Q1 Q2]].
    { intros [key data] HI. destruct (HB key data HI) as [s [-> [X1 [X2 [X3 X4]]]]].
      destruct (D1 s X1 X2) as [d1 [Y1 Y2]]. destruct (D2 s X3 X2) as [d2 [Z1 Z2]].
      destruct (block_product put1 put2 (merged_dim mf1 s) (merged_dim mf2 (sneg s)) (merged_dim mc1 (sneg s)) (alpha put1 put2 s) d1 d2 data) as [data' [U1 [U2 U3]]]; [lia|lia|lia|].
      exists ([s; sneg s], data'). split.
      - unfold product_block. cbn [nth_error get_or_ub bind].
        replace (mfind (if put1 then [s; sneg s] else [sneg s; s]) b1) with (Some d1). replace (mfind (if put2 then [sneg s; s] else [s; sneg s]) b2) with (Some d2).
        cbn [at_or_throw bind]. rewrite G0, X1, X2, X3. cbn [andb at_or_throw bind]. rewrite G1, sneg_invol, X1, X2, X3. cbn [andb at_or_throw bind].
        rewrite Fc, sneg_invol, X1, X2. cbn [at_or_throw bind]. fold (alpha put1 put2 s). rewrite U1. reflexivity.
      - split; [reflexivity|]. split; [exact U2|]. cbn [fst snd]. intros s' d1' d2' Es E1' E2' j q Hj Hq. injection Es as <- _.
        rewrite Y1 in E1'. injection E1' as <-. rewrite Z1 in E2'. injection E2' as <-. exact (U3 j q Hj Hq). }
    assert (Hsh : shape blocks = shape (t_blocks p)).
    { unfold shape. clear - Q2. induction Q2 as [|x y l l' [E1 [E2 _]] H IH]; [reflexivity|]. cbn [map]. f_equal; [congruence|exact IH]. }
    assert (Wp : wf_tensor (mkTensor (t_names p) (mkCore (t_edges p) blocks))).
    { destruct M2 as [A1 A2 A3]. constructor; [|exact A2|exact A3]. apply (shape_wf (t_core p)); [exact A1|reflexivity|exact Hsh]. }
    exists p, p0, p1, blocks. split; [exact M1|]. split; [exact M3|]. split; [exact T1|]. split; [exact Q1|]. split; [exact Wp|]. split; [exact G0|]. split; [exact G1|].
    split; [|rewrite M5 in T1; cbn [prune_from] in T1; injection T1 as <- <-; split; reflexivity].
    intros s d1 d2 j q X1 X2 X3 Y1 Z1 Hj Hq.
    destruct (T4 s (merged_dim mf1 s) (merged_dim mf2 (sneg s))) as [d' [V1 [V2 _]]].
    { now rewrite F1, X1, X2. } { now rewrite F2, X2, X3. }
    destruct (Forall2_keys _ _ P _ _ Q2 V1) as [v' [V3 [V4 V5]]].
    specialize (V5 s d1 d2 eq_refl Y1 Z1 j q Hj Hq). cbn [snd] in V5.
    unfold elem. cbn [c_edges c_blocks map fst snd]. rewrite T1. cbn [maps_of map dims_of]. rewrite G0, G1, sneg_invol, X1, X2, X3. cbn [andb]. rewrite V3. exact V5.
  Qed.
End Product.

Section Flatten.
  Context {S R : Type} {SS : Sym S} {SL : SymLaws S} {RR : Scalar R}.
  Notation entry := (S * nat)%type.
  Hypothesis EA : exact_arithmetic R.

  Lemma total_perm : forall (c : nat -> entry) l1 l2, Permutation l1 l2 -> total (map c l1) = total (map c l2).
  Proof. intros c l1 l2 H. unfold total. apply ssum_perm. now do 2 apply Permutation_map. Qed.
  Lemma combine_coords : forall (ns : list nat) (pt : list entry), NoDup ns -> length ns = length pt -> map (coord (combine ns pt)) ns = pt.
  Proof. intros ns pt H L. symmetry. apply (assigns_coord (combine ns pt)). now apply assigns_combine. Qed.
  Lemma in_range_perm : forall (m : nat -> list entry) (c : nat -> entry) l1 l2, incl l2 l1 -> in_range (map m l1) (map c l1) -> in_range (map m l2) (map c l2).
  Proof. intros m c l1 l2 H. rewrite !in_range_named. auto. Qed.

  Lemma flatten_sym : forall (ns cs : list nat) (m : nat -> list entry) (f : list entry -> R) (g : nat -> R) s, NoDup ns -> Permutation ns cs ->
    (forall n, In n ns -> msorted (m n)) ->
    (forall pt, in_range (map m ns) pt -> total pt <> s -> f pt = rzero) ->
    (forall pt, in_range (map m ns) pt -> total pt = s -> f pt = g (snd (fuse (map m cs) (map (coord (combine ns pt)) cs)))) ->
    rsum (map f (points (map m ns))) = rsum (map g (seq 0 (merged_dim (map m cs) s))).
  Proof.
    intros ns cs m f g s Hn Hp Hm Hz Hf.
    assert (Hc : NoDup cs) by (eapply Permutation_NoDup; eauto).
    assert (Sn : sorted_maps (map m ns)) by (unfold sorted_maps; rewrite Forall_map; apply Forall_forall; auto).
    assert (Sc : sorted_maps (map m cs)).
    { unfold sorted_maps. rewrite Forall_map. apply Forall_forall. intros n Hin. apply Hm. eapply Permutation_in; [apply Permutation_sym; exact Hp|exact Hin]. }
    assert (Lr : forall l pt, in_range (map m l) pt -> length l = length pt) by (intros l pt H; apply in_range_length in H; rewrite map_length in H; lia).
    assert (Rc : forall ns cs pt, NoDup ns -> incl cs ns -> in_range (map m ns) pt -> in_range (map m cs) (map (coord (combine ns pt)) cs)).
    { intros l1 l2 pt H1 H2 H3. apply (in_range_perm m (coord (combine l1 pt)) l1 l2 H2). now rewrite combine_coords by eauto. }
    assert (Tc : forall ns cs pt, NoDup ns -> Permutation ns cs -> in_range (map m ns) pt -> total (map (coord (combine ns pt)) cs) = total pt).
    { intros l1 l2 pt H1 H2 H3. rewrite <- (total_perm _ _ _ H2). now rewrite combine_coords by eauto. }
    assert (I1 : incl cs ns) by (intros x Hx; eapply Permutation_in; [apply Permutation_sym; exact Hp|exact Hx]).
    assert (I2 : incl ns cs) by (intros x Hx; eapply Permutation_in; [exact Hp|exact Hx]).
    rewrite (rsum_filter EA _ (fun pt => eqb (total pt) s)).
    2: { intros pt Hin E. apply in_points in Hin. apply eqb_false in E. apply Hz; assumption. }
    apply (rsum_bij EA) with (h := fun pt => snd (fuse (map m cs) (map (coord (combine ns pt)) cs))).
    - apply NoDup_filter. now apply NoDup_points.
    - apply seq_NoDup.
    - intros pt Hin. apply filter_In in Hin as [Hin E]. apply in_points in Hin. apply eqb_eq in E. split; [|symmetry; now apply Hf].
      apply in_seq. split; [lia|]. cbn [plus]. rewrite <- E, <- (Tc ns cs pt Hn Hp Hin). apply fuse_bound; auto.
    - intros x y Hx Hy E. apply filter_In in Hx as [Hx Ex]. apply filter_In in Hy as [Hy Ey]. apply in_points in Hx, Hy. apply eqb_eq in Ex, Ey.
      assert (Ec : map (coord (combine ns x)) cs = map (coord (combine ns y)) cs).
      { apply (fuse_injective (map m cs)); auto. apply injective_projections; [|exact E]. unfold fuse. cbn [fst]. rewrite !Tc by auto. congruence. }
      rewrite <- (combine_coords ns x), <- (combine_coords ns y) by eauto. apply map_ext_in. intros n Hin. exact (proj1 map_ext_in_iff Ec n (I2 n Hin)).
    - intros z Hz'. apply in_seq in Hz' as [_ Hz']. cbn [plus] in Hz'. destruct (fuse_surjective (map m cs) s z Sc Hz') as [pc [Hr Hfu]].
      exists (map (coord (combine cs pc)) ns).
      assert (Hq : map (coord (combine ns (map (coord (combine cs pc)) ns))) cs = pc).
      { rewrite <- (combine_coords cs pc) at 2 by eauto. apply map_ext_in. intros n Hin.
        assert (Hx : map (coord (combine ns (map (coord (combine cs pc)) ns))) ns = map (coord (combine cs pc)) ns) by (apply combine_coords; [exact Hn|now rewrite map_length]).
        exact (proj1 map_ext_in_iff Hx n (I1 n Hin)). }
      split; [|now rewrite Hq, Hfu]. apply filter_In. split; [apply in_points; now apply Rc|]. rewrite (Tc cs ns pc Hc (Permutation_sym Hp) Hr).
      replace (total pc) with s by (symmetry; exact (f_equal fst Hfu)). apply eqb_refl.
  Qed.
End Flatten.

Section Sym.
  Context {S R : Type} {SS : Sym S} {SL : SymLaws S} {RR : Scalar R}.
  Notation entry := (S * nat)%type.
  Hypothesis Ns : @is_nosym S SS = false.
  Hypothesis EA : exact_arithmetic R.
  Variables (E : @env R) (I : internal) (t1 t2 : tensor S R) (pairs : list (nat * nat)).
  Hypothesis HI : i_contract_1 I <> i_contract_2 I.
  Hypothesis W1 : wf_tensor t1.
  Hypothesis W2 : wf_tensor t2.
  Hypothesis B1 : t_blocks t1 <> [].
  Hypothesis P1 : incl (map fst pairs) (t_names t1).
  Hypothesis P2 : incl (map snd pairs) (t_names t2).
  Hypothesis N1 : NoDup (map fst pairs).
  Hypothesis N2 : NoDup (map snd pairs).
  Hypothesis HM : forall a b s d, In (a, b) pairs -> In (s, d) (emap (edge_named (tlegs t1) a)) <-> In (sneg s, d) (emap (edge_named (tlegs t2) b)).
  Hypothesis HP : length pairs <= 1 \/ forall s : S, sneg s = s.
  Hypothesis HF : is_fermi = true -> length pairs <= 1.
  Hypothesis HN : is_fermi = true -> exact_negation R.
  Hypothesis HA : is_fermi = true -> forall a b, In (a, b) pairs -> earrow (edge_named (tlegs t1) a) = negb (earrow (edge_named (tlegs t2) b)).
  Let free1 := filter (fun n => negb (mem_name n (map fst pairs))) (t_names t1).
  Let free2 := filter (fun n => negb (mem_name n (map snd pairs))) (t_names t2).
  Hypothesis HD : NoDup (free1 ++ free2).
  Hypothesis HG1 : is_fermi = true -> env_arrow E <> None \/
    forall l, In l [free1; map fst pairs] -> length l = 1 \/ exists n e, In n l /\ In (n, e) (tlegs t1) /\ arrow_valid e = true.
  Hypothesis HG2 : is_fermi = true -> env_arrow E <> None \/
    forall l, In l [free2; map snd pairs] -> length l = 1 \/ exists n e, In n l /\ In (n, e) (tlegs t2) /\ arrow_valid e = true.

  Lemma named_sorted : forall (t : tensor S R) n, wf_tensor t -> In n (t_names t) -> msorted (emap (edge_named (tlegs t) n)).
  Proof. intros t n W Hn. destruct (leg_of_name t n W Hn) as [e He]. rewrite (leg_named t n e W He). exact (leg_sorted t n e W He). Qed.
  Lemma pair_opp : forall a b, In (a, b) pairs -> opp (emap (edge_named (tlegs t1) a)) (emap (edge_named (tlegs t2) b)).
  Proof.
    intros a b H. split; [apply named_sorted; auto; apply P1; now apply (in_map fst) in H|]. split; [apply named_sorted; auto; apply P2; now apply (in_map snd) in H|].
    intros s d. now apply HM.
  Qed.
  Lemma two_groups : forall (t : tensor S R) (cs ns : list nat), wf_tensor t -> Permutation ns cs -> incl ns (t_names t) -> NoDup ns ->
    Permutation (t_names t) (filter (fun n => negb (mem_name n ns)) (t_names t) ++ cs).
  Proof.
    intros t cs ns W Hp Hi Hn. etransitivity; [apply (split_perm nat (fun n => mem_name n ns))|]. etransitivity; [apply Permutation_app_comm|]. apply Permutation_app_head.
    etransitivity; [|exact Hp]. apply NoDup_Permutation; [apply NoDup_filter; apply W|exact Hn|]. intro x. rewrite filter_In, mem_name_In. split; [tauto|]. auto.
  Qed.
  Lemma no_deletions : forall common, incl common pairs -> deletions t1 t2 common = Ok ([], []).
  Proof.
    intros common Hc. unfold deletions. induction common as [|[a b] common IH]; [reflexivity|]. cbn [foldM fst snd].
    assert (Hab : In (a, b) pairs) by (apply Hc; now left).
    rewrite (edge_of_ok t1 a W1) by (apply P1; now apply (in_map fst) in Hab). rewrite (edge_of_ok t2 b W2) by (apply P2; now apply (in_map snd) in Hab). cbn [bind].
    pose proof (pair_opp a b Hab) as Ho.
    assert (D : forall (e1 e2 : edge S), is_fermi && Bool.eqb (earrow e1) (earrow e2) = false -> (forall s d, In (s, d) (emap e1) -> mfind (sneg s) (emap e2) = Some d) -> delete_unused e1 e2 = Ok []).
    { clear. intros e1 e2 Hf H. unfold delete_unused. rewrite Hf. induction (emap e1) as [|[s d] m IH]; [reflexivity|]. cbn [foldM fst snd].
      rewrite (H s d (or_introl eq_refl)), Nat.eqb_refl. cbn [bind]. apply IH. intros; apply H. now right. }
    assert (Har : is_fermi && Bool.eqb (earrow (edge_named (tlegs t1) a)) (earrow (edge_named (tlegs t2) b)) = false /\
                  is_fermi && Bool.eqb (earrow (edge_named (tlegs t2) b)) (earrow (edge_named (tlegs t1) a)) = false).
    { revert HA. destruct (@is_fermi S SS); [|auto]. intro HA'. rewrite (HA' eq_refl a b Hab). now destruct (earrow (edge_named (tlegs t2) b)). }
    rewrite D, D; try apply Har.
    - cbn [bind]. unfold add_delete. cbn [is_nil]. apply IH. intros x Hx. apply Hc. now right.
    - intros s d Hin. apply In_mfind; [apply Ho|]. destruct Ho as [_ [_ Ho]]. apply Ho. now rewrite sneg_invol.
    - intros s d Hin. rewrite (opp_find _ _ s Ho). apply In_mfind; [apply Ho|exact Hin].
  Qed.
  (** a charge of a tensor's group of at most one leg occurs in a block *)
  Lemma few_present : forall (t : tensor S R) fr cs s, wf_tensor t -> t_blocks t <> [] -> Permutation (t_names t) (fr ++ cs) -> length fr <= 1 ->
    present (mp t fr) s = true -> present (mp t cs) (sneg s) = true.
  Proof.
    intros t fr cs s W B Hp HL Hs.
    assert (Ifr : incl fr (t_names t)) by (intros n Hn; eapply Permutation_in; [apply Permutation_sym; exact Hp|apply in_or_app; auto]).
    assert (Ics : incl cs (t_names t)) by (intros n Hn; eapply Permutation_in; [apply Permutation_sym; exact Hp|apply in_or_app; auto]).
    assert (Hkey : exists key, In key (map fst (t_blocks t)) /\ forall i n, fr = [n] -> nth_error (t_names t) i = Some n -> nth_error key i = Some s).
    { destruct fr as [|n [|? ?]]; [| |simpl in HL; lia].
      - destruct (t_blocks t) as [|[key data] bl]; [congruence|]. exists key. split; [now left|]. discriminate.
      - assert (Hn : In n (t_names t)) by (apply Ifr; now left). destruct (leg_of_name t n W Hn) as [e He]. unfold mp in Hs. cbn [map] in Hs. rewrite (leg_named t n e W He) in Hs.
        rewrite one_present in Hs by exact (leg_sorted t n e W He). unfold mmem in Hs. destruct (mfind s (emap e)) as [d|] eqn:Ed; [|discriminate].
        apply In_nth_error in He as [i Hi]. apply combine_nth_inv in Hi as [H1 H2].
        destruct (wf_pruned _ (wf_tcore _ W) i e s H2) as [key [K1 K2]]. { apply mfind_In in Ed. now apply (in_map fst) in Ed. }
        exists key. split; [exact K1|]. intros j n' Hn' Hj. injection Hn' as <-.
        assert (j = i). { pose proof (wf_nodup _ W) as Hnd. rewrite NoDup_nth_error in Hnd. apply Hnd; [apply nth_error_Some; congruence|congruence]. } now subst. }
    destruct Hkey as [key [K1 K2]].
    assert (Hd : exists ds, dims_of (maps_of (t_edges t)) key = Some ds /\ ssum key = szero).
    { change (t_blocks t) with (c_blocks (t_core t)) in K1. rewrite <- shape_keys, (wf_shape _ (wf_tcore _ W)) in K1. apply in_map_iff in K1 as [[k n] [<- K1]]. cbn [fst].
      apply in_block_list in K1 as [K1 Kz]. apply dims_of_choice in K1 as [ds [K1 _]]; [|apply W]. eauto. }
    destruct Hd as [ds [Hd Hz]]. pose proof (dims_of_length _ _ _ Hd) as [L1 L2]. unfold maps_of in L1, L2. rewrite map_length in L1, L2.
    set (pos := combine (t_names t) (combine key ds)).
    assert (LL : length (t_names t) = length (combine key ds)) by (rewrite combine_length, (wf_rank _ W); lia).
    assert (Hcc : map (coord pos) (t_names t) = combine key ds) by (apply combine_coords; [apply W|exact LL]).
    assert (Hkk : map (fun n => fst (coord pos n)) (t_names t) = key) by (rewrite <- (map_map (coord pos) fst), Hcc; apply combine_map_fst; lia).
    assert (Hall : forall n, In n (t_names t) -> exists d, mfind (fst (coord pos n)) (emap (edge_named (tlegs t) n)) = Some d).
    { assert (Hdd : dims_of (map (fun n => emap (edge_named (tlegs t) n)) (t_names t)) (map (fun n => fst (coord pos n)) (t_names t)) = Some ds).
      { rewrite Hkk. rewrite <- Hd. f_equal. transitivity (maps_of (map (edge_named (tlegs t)) (t_names t))); [unfold maps_of; now rewrite map_map|]. now rewrite (legs_to_edges t W). }
      revert Hdd. generalize (tlegs t) as lg. generalize pos as ps. clear. intros ps lg. revert ds. induction (t_names t) as [|x l IH]; intros ds Hdd n Hn; [destruct Hn|]. cbn [map dims_of] in Hdd.
      destruct (mfind (fst (coord ps x)) (emap (edge_named lg x))) as [d|] eqn:Ed; [|discriminate].
      destruct (dims_of _ _) as [ds'|] eqn:Eds; [|discriminate]. destruct Hn as [->|Hn]; [eauto|]. eapply IH; eauto. }
    apply (present_iff _ _ (mp_sorted t W cs Ics)).
    exists (map (fun n => fst (coord pos n)) cs).
    assert (Hdc : exists dc, dims_of (mp t cs) (map (fun n => fst (coord pos n)) cs) = Some dc).
    { unfold mp. clear - Hall Ics. induction cs as [|x cs IH]; [exists []; reflexivity|]. cbn [map dims_of]. destruct (Hall x (Ics x (or_introl eq_refl))) as [d ->].
      destruct IH as [dc ->]; [intros y Hy; apply Ics; now right|]. eauto. }
    destruct Hdc as [dc Hdc]. exists dc. split; [exact Hdc|]. apply sadd_eq_0.
    assert (Hfr : ssum (map (fun n => fst (coord pos n)) fr) = s).
    { destruct fr as [|n [|? ?]]; [| |simpl in HL; lia].
      - unfold present, mp in Hs. cbn [map tuples existsb] in Hs. rewrite orb_false_r in Hs. apply eqb_eq in Hs. exact Hs.
      - cbn [map]. rewrite ssum_one. assert (Hn : In n (t_names t)) by (apply Ifr; now left). apply In_nth_error in Hn as [i Hi].
        specialize (K2 i n eq_refl Hi). rewrite <- Hkk, nth_error_map, Hi in K2. cbn [option_map] in K2. now injection K2. }
    rewrite <- Hfr, <- ssum_app, <- map_app. rewrite <- Hz, <- Hkk. apply ssum_perm. apply Permutation_map. apply Permutation_sym. exact Hp.
  Qed.

  (** ** the arguments of the two merges and of the final split *)
  Definition rev_1 : list nat := if is_fermi then map fst (filter (fun ne => xorb (mem_name (fst ne) (map fst pairs)) (earrow (snd ne))) (tlegs t1)) else [].
  Definition rev_2 : list nat := if is_fermi then map fst (filter (fun ne => earrow (snd ne)) (tlegs t2)) else [].
  Definition args_1 (common : list (nat * nat)) (put1 : bool) : @eo_args S :=
    mkArgs [] [] rev_1 (of_list [(i_contract_1 I, free1); (i_contract_2 I, map fst common)]) (if put1 then [i_contract_1 I; i_contract_2 I] else [i_contract_2 I; i_contract_1 I])
      false [] (map fst common) [] [i_contract_2 I] [].
  Definition args_2 (common : list (nat * nat)) (put2 : bool) : @eo_args S :=
    mkArgs [] [] rev_2 (of_list [(i_contract_2 I, free2); (i_contract_1 I, map snd common)]) (if put2 then [i_contract_2 I; i_contract_1 I] else [i_contract_1 I; i_contract_2 I])
      false [] [] [] [] [].
  Lemma find_two : forall (x y : nat) (lx ly : list nat), x <> y -> mfind x (of_list [(x, lx); (y, ly)]) = Some lx /\ mfind y (of_list [(x, lx); (y, ly)]) = Some ly.
  Proof.
    clear. intros x y lx ly H. split; (apply (of_list_find nat (list nat) _ _); [|simpl; auto]); cbn [map fst]; repeat constructor; simpl; intuition.
  Qed.
  Lemma groups_1 : forall common put1, groups (args_1 common put1) = if put1 : bool then [free1; map fst common] else [map fst common; free1].
  Proof.
    intros common put1. destruct (find_two (i_contract_1 I) (i_contract_2 I) free1 (map fst common) HI) as [F1 F2].
    unfold groups, merge_groups, args_1. cbn [a_merge a_new_names]. destruct put1; cbn [map]; now rewrite F1, F2.
  Qed.
  Lemma groups_2 : forall common put2, groups (args_2 common put2) = if put2 : bool then [free2; map snd common] else [map snd common; free2].
  Proof.
    intros common put2. destruct (find_two (i_contract_2 I) (i_contract_1 I) free2 (map snd common) (not_eq_sym HI)) as [F1 F2].
    unfold groups, merge_groups, args_2. cbn [a_merge a_new_names]. destruct put2; cbn [map]; now rewrite F1, F2.
  Qed.
  Lemma few_pairs : forall (f : nat -> bool) (l : list nat), length l <= 1 -> odd_pairs f l = 0.
  Proof. clear. intros f [|x [|? ?]] H; simpl in *; try reflexivity; lia. Qed.
  Lemma in_rev_1 : is_fermi = true -> forall n, In n (t_names t1) -> mem_name n rev_1 = xorb (mem_name n (map fst pairs)) (earrow (edge_named (tlegs t1) n)).
  Proof.
    intros F n Hn. unfold rev_1. rewrite F. destruct (leg_of_name t1 n W1 Hn) as [e He]. rewrite (leg_named t1 n e W1 He).
    destruct (xorb (mem_name n (map fst pairs)) (earrow e)) eqn:X.
    - apply mem_name_In. apply in_map_iff. exists (n, e). split; [reflexivity|]. apply filter_In. auto.
    - apply mem_name_false. intro Hc. apply in_map_iff in Hc as [[n' e'] [Hnn Hc]]. cbn [fst] in Hnn. subst n'. apply filter_In in Hc as [Hc1 Hc2]. cbn [fst snd] in Hc2.
      rewrite <- (leg_named t1 n e W1 He), (leg_named t1 n e' W1 Hc1) in X. congruence.
  Qed.
  (** moving one of two groups, whose charges add up to zero, over the other *)
  Lemma swap_sign : forall (t : tensor S R) (pos : list (nat * entry)) (fr cs : list nat) s, wf_tensor t -> Permutation (t_names t) (fr ++ cs) ->
    (forall n, In n (t_names t) -> mfind n pos <> None) -> total (map (coord pos) fr) = s -> total (map (coord pos) cs) = sneg s ->
    Nat.odd (exchanged_odd (leg_odd pos) (t_names t) (cs ++ fr)) = xorb (Nat.odd (exchanged_odd (leg_odd pos) (t_names t) (fr ++ cs))) (sodd s).
  Proof.
    intros t pos fr cs s W Hp Hf T1 T2.
    rewrite (exchanged_compose (leg_odd pos) (t_names t) (fr ++ cs) (cs ++ fr) (wf_nodup _ W) Hp (Permutation_app_comm _ _)). f_equal.
    rewrite exchange_groups by (eapply Permutation_NoDup; [exact Hp|apply W]).
    assert (Hin : forall n, In n fr \/ In n cs -> mfind n pos <> None).
    { intros n Hn. apply Hf. eapply Permutation_in; [apply Permutation_sym; exact Hp|]. now apply in_or_app. }
    rewrite <- (odd_total pos fr) by auto. rewrite <- (odd_total pos cs) by auto. rewrite T1, T2, sodd_neg. now destruct (sodd s).
  Qed.
  Lemma pair_sign_bose : is_fermi = false -> forall pos1 pos2, pair_sign t1 t2 pairs pos1 pos2 = 0.
  Proof.
    intros F pos1 pos2. assert (X : forall (pos : position) l l', exchanged_odd (leg_odd pos) l l' = 0).
    { intros pos l l'. unfold exchanged_odd. rewrite filter_nothing; [reflexivity|]. intros p _. now rewrite (bose_leg_odd pos F). }
    unfold pair_sign. rewrite !X. cbn [plus]. unfold count. rewrite filter_nothing; [reflexivity|]. intros n _. rewrite (bose_leg_odd pos1 F). apply andb_false_r.
  Qed.
  Lemma sign_parity : forall common put1 put2 pos1 pos2 s, Permutation pairs common ->
    (forall n, In n (t_names t1) -> mfind n pos1 <> None) -> (forall n, In n (t_names t2) -> mfind n pos2 <> None) ->
    total (map (coord pos1) free1) = s -> total (map (coord pos1) (map fst common)) = sneg s ->
    total (map (coord pos2) free2) = sneg s -> total (map (coord pos2) (map snd common)) = s ->
    Nat.odd (pair_sign t1 t2 pairs pos1 pos2) =
    xorb (Nat.odd (sign_number t1 (args_1 common put1) pos1)) (xorb (Nat.odd (sign_number t2 (args_2 common put2) pos2)) (is_fermi && xorb put2 (negb put1) && sodd s)).
  Proof.
    intros common put1 put2 pos1 pos2 s Hcp Hf1 Hf2 T1 T2 T3 T4. destruct (bool_dec (@is_fermi S SS) true) as [F|F].
    2: { apply not_true_is_false in F. rewrite (pair_sign_bose F), !sign_bose, F by exact F. reflexivity. }
    assert (Hcc : common = pairs).
    { pose proof (HF F) as HL. clear - HL Hcp. destruct pairs as [|x [|y l]]; [now apply Permutation_nil in Hcp| |simpl in HL; lia].
      now apply Permutation_length_1_inv in Hcp. }
    subst common. pose proof (HF F) as HL.
    pose proof (two_groups t1 (map fst pairs) (map fst pairs) W1 (Permutation_refl _) P1 N1) as G1. fold free1 in G1.
    pose proof (two_groups t2 (map snd pairs) (map snd pairs) W2 (Permutation_refl _) P2 N2) as G2. fold free2 in G2.
    assert (L1 : length (map fst pairs) <= 1) by (now rewrite map_length). assert (L2 : length (map snd pairs) <= 1) by (now rewrite map_length).
    rewrite !sign_plain by reflexivity. rewrite groups_1, groups_2.
    rewrite (plain_names2 t1 (args_1 pairs put1)) by (try reflexivity; assumption). rewrite (plain_names2 t2 (args_2 pairs put2)) by (try reflexivity; assumption).
    assert (M1 : par (fun nl : nat * list nat => mem_name (fst nl) (a_ex_merge (args_1 pairs put1)) && Nat.odd (odd_pairs (leg_odd pos1) (snd nl)))
                   (combine (a_new_names (args_1 pairs put1)) (if put1 then [free1; map fst pairs] else [map fst pairs; free1])) = false).
    { apply par_false. intros [n l] Hin. cbn [fst snd]. unfold args_1 in *. cbn [a_ex_merge a_new_names] in *. cbn [mem_name existsb]. rewrite orb_false_r.
      assert (Hl : n = i_contract_1 I \/ l = map fst pairs) by (destruct put1; cbn [combine In] in Hin; intuition congruence).
      destruct Hl as [->| ->].
      - destruct (Nat.eqb_spec (i_contract_1 I) (i_contract_2 I)); [contradiction|reflexivity].
      - rewrite few_pairs by exact L1. apply andb_false_r. }
    rewrite M1. clear M1.
    rewrite (par_false _ _ (combine (a_new_names (args_2 pairs put2)) (if put2 then [free2; map snd pairs] else [map snd pairs; free2]))) by (intros nl _; reflexivity).
    rewrite (par_false _ _ (t_names t2)).
    2: { intros n _. unfold args_2. cbn [a_ex_rev mem_name existsb]. now rewrite andb_false_r. }
    assert (M2 : par (fun n => mem_name n (a_reversed (args_1 pairs put1)) && mem_name n (a_ex_rev (args_1 pairs put1)) && leg_odd pos1 n) (t_names t1) =
                 par (fun n => negb (earrow (edge_named (tlegs t1) n)) && leg_odd pos1 n) (map fst pairs)).
    { rewrite (par_ext _ _ (fun n => mem_name n (map fst pairs) && (negb (earrow (edge_named (tlegs t1) n)) && leg_odd pos1 n))).
      - rewrite (par_perm _ _ _ _ G1), par_app. rewrite (par_false _ _ free1).
        + rewrite xorb_false_l. apply par_ext. intros n Hn. rewrite (proj2 (mem_name_In n (map fst pairs)) Hn). reflexivity.
        + intros n Hn. apply filter_In in Hn as [_ Hn]. apply negb_true_iff in Hn. now rewrite Hn.
      - intros n Hn. unfold args_1. cbn [a_reversed a_ex_rev]. rewrite (in_rev_1 F n Hn). destruct (mem_name n (map fst pairs)), (earrow (edge_named (tlegs t1) n)), (leg_odd pos1 n); reflexivity. }
    rewrite M2. clear M2. unfold pair_sign. rewrite !odd_plus, odd_count.
    replace (rev (map fst pairs)) with (map fst pairs) by (clear - HL; destruct pairs as [|x [|y l]]; simpl in HL; try lia; reflexivity).
    fold free1 free2. change (free_names (t_names t1) (map fst pairs)) with free1. change (free_names (t_names t2) (map snd pairs)) with free2.
    change (legs_of t1) with (tlegs t1).
    pose proof (swap_sign t1 pos1 free1 (map fst pairs) s W1 G1 Hf1 T1 T2) as X1.
    pose proof (swap_sign t2 pos2 free2 (map snd pairs) (sneg s) W2 G2 Hf2 T3) as X2. rewrite sneg_invol, sodd_neg in X2. specialize (X2 T4).
    rewrite F. destruct put1, put2; cbn [concat]; rewrite ?app_nil_r, ?X1, ?X2; cbn [negb xorb andb];
      destruct (Nat.odd (exchanged_odd (leg_odd pos1) (t_names t1) (free1 ++ map fst pairs))), (Nat.odd (exchanged_odd (leg_odd pos2) (t_names t2) (free2 ++ map snd pairs))),
        (par (fun n => negb (earrow (edge_named (tlegs t1) n)) && leg_odd pos1 n) (map fst pairs)), (sodd s); reflexivity.
  Qed.

  Theorem contract_signed : exists r re, contract E I t1 t2 pairs = Ok r /\ wf_tensor r /\ t_names r = free1 ++ free2 /\
    maps_of re = mp t1 free1 ++ mp t2 free2 /\ t_edges r = prune_from (t_blocks r) 0 re /\ map fst (t_blocks r) = map fst (block_list (mp t1 free1 ++ mp t2 free2)) /\
    (is_fermi = true -> Forall2 (fun n e =>
       (In n free1 -> arrow_valid (edge_named (tlegs t1) n) = true -> earrow e = earrow (edge_named (tlegs t1) n)) /\
       (In n free2 -> arrow_valid (edge_named (tlegs t2) n) = true -> earrow e = earrow (edge_named (tlegs t2) n))) (free1 ++ free2) re) /\
    forall pos pt, assigns pos (free1 ++ free2) pt -> in_range (mp t1 free1 ++ mp t2 free2) pt -> ssum (map fst pt) = szero ->
      const_at r pos = Ok (signed_sum t1 t2 pairs pos).
  Proof.
    assert (Hpres : present_pairs (t_names t1) (t_names t2) pairs = pairs) by (now apply present_all).
    assert (Hdup : has_dup (map fst pairs) || has_dup (map snd pairs) = false).
    { apply orb_false_iff. split; now apply has_dup_false. }
    destruct (plan_perm (t_names t1) (t_names t2) free1 free2 pairs (wf_nodup _ W1) (wf_nodup _ W2) N1 N2 P1 P2) as [common [put1 [put2 [Hplan Hcp]]]].
    set (cs1 := map fst common). set (cs2 := map snd common).
    assert (Q1 : Permutation (map fst pairs) cs1) by (now apply Permutation_map).
    assert (Q2 : Permutation (map snd pairs) cs2) by (now apply Permutation_map).
    assert (Hinc : incl common pairs) by (intros x Hx; eapply Permutation_in; [apply Permutation_sym; exact Hcp|exact Hx]).
    pose proof (two_groups t1 cs1 (map fst pairs) W1 Q1 P1 N1) as G1. fold free1 in G1.
    pose proof (two_groups t2 cs2 (map snd pairs) W2 Q2 P2 N2) as G2. fold free2 in G2.
    set (C1 := i_contract_1 I) in *. set (C2 := i_contract_2 I) in *.
    set (mf1 := mp t1 free1) in *. set (mf2 := mp t2 free2) in *. set (mc1 := mp t1 cs1). set (mc2 := mp t2 cs2).
    assert (If1 : incl free1 (t_names t1)) by (intros x Hx; apply filter_In in Hx; tauto).
    assert (If2 : incl free2 (t_names t2)) by (intros x Hx; apply filter_In in Hx; tauto).
    assert (Ic1 : incl cs1 (t_names t1)) by (intros x Hx; apply P1; eapply Permutation_in; [apply Permutation_sym; exact Q1|exact Hx]).
    assert (Ic2 : incl cs2 (t_names t2)) by (intros x Hx; apply P2; eapply Permutation_in; [apply Permutation_sym; exact Q2|exact Hx]).
    assert (Hopp : Forall2 opp mc1 mc2).
    { unfold mc1, mc2, mp, cs1, cs2. rewrite !map_map. apply Forall2_map_l, Forall2_map_r, Forall2_same. intros [a b] Hab. cbn [fst snd]. apply pair_opp. now apply Hinc. }
    destruct (match_facts mc1 mc2 Hopp) as [K1 [K2 K3]].
    { destruct HP as [HL|HZ]; [left|right; exact HZ]. unfold mc1, mp, cs1. rewrite !map_length. rewrite <- (Permutation_length Hcp). exact HL. }
    assert (K1' : forall s, present mc2 s = present mc1 (sneg s)) by (intro s; rewrite <- (sneg_invol s) at 1; apply K1).
    assert (K2' : forall s, merged_dim mc2 s = merged_dim mc1 (sneg s)) by (intro s; rewrite <- (sneg_invol s) at 1; apply K2).
    set (a1 := args_1 common put1). set (a2 := args_2 common put2).
    assert (HGp : forall (t : tensor S R) (fr ns cs : list nat), Permutation ns cs ->
      (is_fermi = true -> env_arrow E <> None \/ forall l, In l [fr; ns] -> length l = 1 \/ exists n e, In n l /\ In (n, e) (tlegs t) /\ arrow_valid e = true) ->
      (is_fermi = true -> env_arrow E <> None \/ forall l, In l [fr; cs] -> length l = 1 \/ exists n e, In n l /\ In (n, e) (tlegs t) /\ arrow_valid e = true)).
    { clear. intros t fr ns cs Hp H F. destruct (H F) as [X|X]; [now left|right]. intros l [<-|[<-|[]]]; [apply X; now left|].
      destruct (X ns) as [Y|[n [e [Y1 [Y2 Y3]]]]]; [right; now left|left; now rewrite <- (Permutation_length Hp)|right]. exists n, e. split; [eapply Permutation_in; eauto|auto]. }
    destruct (regroup2_signed E t1 W1 put1 a1 C1 C2 free1 cs1 HI eq_refl eq_refl eq_refl eq_refl eq_refl G1 (HGp t1 _ _ _ Q1 HG1)) as [m1 [e1 [ec [X1 [X2 [X3 [X4 [X5 [X6 [[ge1 [XA1 XA2]] [_ X7]]]]]]]]]]].
    destruct (regroup2_signed E t2 W2 put2 a2 C2 C1 free2 cs2 (not_eq_sym HI) eq_refl eq_refl eq_refl eq_refl eq_refl G2 (HGp t2 _ _ _ Q2 HG2)) as [m2 [e2 [ec2 [Y1 [Y2 [Y3 [Y4 [Y5 [Y6 [[ge2 [YA1 YA2]] [_ Y7]]]]]]]]]]].
    fold mf1 mc1 in X5, X6, X7. fold mf2 mc2 in Y5, Y6, Y7.
    assert (Se1 : msorted (emap e1)).
    { pose proof (wf_maps _ (wf_tcore _ X2)) as Hs. unfold sorted_maps, maps_of in Hs. rewrite Forall_map, Forall_forall in Hs. apply Hs. apply nth_error_In in X3. exact X3. }
    assert (Se2 : msorted (emap e2)).
    { pose proof (wf_maps _ (wf_tcore _ Y2)) as Hs. unfold sorted_maps, maps_of in Hs. rewrite Forall_map, Forall_forall in Hs. apply Hs. apply nth_error_In in Y3. exact Y3. }
    destruct (product_ok EA put1 put2 (t_blocks m1) (t_blocks m2) e1 e2 ec mf1 mc1 mf2 (env_junk E) C1 C2 HI Se1 Se2 X5 X6) as [p [p0 [p1 [blocks [Z1 [Z2 [Z3 [Z4 [Z5 [Z6 [Z7 [Z8 [ZA0 ZA1]]]]]]]]]]]]].
    { intro s. rewrite Y5, K1. reflexivity. }
    { intros s A1 A2. destruct (X7 s A1 A2) as [data [D1 [D2 _]]]. eauto. }
    { intros s A1 A2. destruct (Y7 (sneg s)) as [data [D1 [D2 _]]]; [exact A1|rewrite K1; exact A2|]. rewrite sneg_invol in D1, D2. rewrite K2' in D2. eauto. }
    set (p' := mkTensor (t_names p) (mkCore (t_edges p) blocks)) in *.
    set (fl1 := map (fun ne : nat * edge S => (fst ne, mkEdge false (emap (snd ne)))) (filter (fun ne => negb (mem_name (fst ne) (map fst pairs))) (tlegs t1))).
    set (fl2 := map (fun ne : nat * edge S => (fst ne, mkEdge false (emap (snd ne)))) (filter (fun ne => negb (mem_name (fst ne) (map snd pairs))) (tlegs t2))).
    assert (Nf1 : map fst fl1 = free1) by (unfold fl1; rewrite map_map; cbn [fst]; apply (free_legs_fst t1 (fun n => negb (mem_name n (map fst pairs))) W1)).
    assert (Nf2 : map fst fl2 = free2) by (unfold fl2; rewrite map_map; cbn [fst]; apply (free_legs_fst t2 (fun n => negb (mem_name n (map snd pairs))) W2)).
    assert (Mf1 : lmaps fl1 = mf1).
    { unfold lmaps, fl1. rewrite map_map. cbn [snd emap]. rewrite <- (map_map snd emap). rewrite (free_legs t1 (fun n => negb (mem_name n (map fst pairs))) W1), map_map. reflexivity. }
    assert (Mf2 : lmaps fl2 = mf2).
    { unfold lmaps, fl2. rewrite map_map. cbn [snd emap]. rewrite <- (map_map snd emap). rewrite (free_legs t2 (fun n => negb (mem_name n (map snd pairs))) W2), map_map. reflexivity. }
    assert (Lf1 : length fl1 = length free1) by (now rewrite <- Nf1, map_length). assert (Lf2 : length fl2 = length free2) by (now rewrite <- Nf2, map_length).
    set (rev3 := if is_fermi then map fst (filter (fun ne : nat * edge S => earrow (snd ne)) (filter (fun ne => negb (mem_name (fst ne) (map fst pairs))) (tlegs t1) ++ filter (fun ne => negb (mem_name (fst ne) (map snd pairs))) (tlegs t2))) else []).
    set (a3 := mkArgs [] (of_list [(C1, fl1); (C2, fl2)]) rev3 [] (free1 ++ free2) false [] [] [] [] [] : @eo_args S).
    assert (F3 : forall n x, In (n, x) [(C1, fl1); (C2, fl2)] -> mfind n (a_split a3) = Some x).
    { intros n x H. cbn [a3 a_split]. apply (of_list_find nat (list (nat * edge S)) _ _); [|exact H]. cbn [map fst]. repeat constructor; simpl; intuition. }
    assert (Spl : forall s, present mf1 s = true -> present mf2 (sneg s) = true -> kp fl1 p0 s = true -> kp fl2 p1 (sneg s) = true -> present mc1 (sneg s) = true).
    { intros s A1 A2 A3 A4. unfold kp in A3, A4. destruct (Nat.leb_spec (length fl1) 1) as [L|L].
      - apply (few_present t1 free1 cs1 s W1 B1 G1); [lia|exact A1].
      - unfold mmem in A3. rewrite Z6, A1, A2 in A3. cbn [andb] in A3. rewrite andb_true_r in A3. now destruct (present mc1 (sneg s)). }
    assert (Hs3 : forall pos, Nat.odd (sign_number p' a3 pos) = false).
    { intro pos. apply (sa_sign p' [fl1; fl2] a3 Z5); try reflexivity.
      - cbn [t_names p']. now rewrite Z2.
      - intros n ps Hin. cbn [t_names p'] in Hin. rewrite Z2 in Hin. apply F3. exact Hin.
      - cbn [a3 a_new_names concat]. now rewrite app_nil_r, map_app, Nf1, Nf2.
      - cbn [concat]. now rewrite app_nil_r, map_app, Nf1, Nf2. }
    destruct (split_all_signed E p' [fl1; fl2] a3 Z5) as [r [re [R1 [R2 [R3 [R4 [R5 [R6 [RA R7]]]]]]]]].
    { cbn [t_names p']. now rewrite Z2. } { reflexivity. } { reflexivity. } { reflexivity. }
    { intro Hc. pose proof (F3 C1 fl1 (or_introl eq_refl)) as F. rewrite Hc in F. discriminate. }
    { intros n ps Hin. cbn [t_names p'] in Hin. rewrite Z2 in Hin. apply F3. exact Hin. }
    { intros n ps H. assert (Hk : In n (map fst (a_split a3))) by (apply mfind_In in H; apply in_map_iff; exists (n, ps); auto).
      cbn [a3 a_split] in Hk. apply (proj1 (of_list_keys nat (list (nat * edge S)) _ _ _ _)) in Hk. cbn [map fst In] in Hk. destruct Hk as [<-|[<-|[]]].
      - rewrite (F3 C1 fl1) in H by (simpl; auto). injection H as <-. now left.
      - rewrite (F3 C2 fl2) in H by (simpl; auto). injection H as <-. right. now left. }
    { cbn [a3 a_new_names concat]. now rewrite app_nil_r, map_app, Nf1, Nf2. }
    { cbn [concat]. now rewrite app_nil_r, map_app, Nf1, Nf2. }
    { intros l [<-|[<-|[]]]; unfold fl1, fl2; rewrite Forall_map; apply Forall_forall; intros [n e] Hin; apply filter_In in Hin as [Hin _]; cbn [snd emap].
      - exact (leg_sorted t1 n e W1 Hin). - exact (leg_sorted t2 n e W2 Hin). }
    { intros gks HG Hz Hkp. inversion HG as [|? k1 ? gk' [ds1 D1] HG']; subst. inversion HG' as [|? k2 ? gk'' [ds2 D2] HG'']; subst. inversion HG''; subst. clear HG HG' HG''.
      cbn [concat] in Hz. rewrite app_nil_r, ssum_app in Hz. apply sadd_eq_0 in Hz. rewrite Mf1 in D1. rewrite Mf2 in D2.
      assert (A1 : present mf1 (ssum k1) = true) by (apply (present_iff _ _ (mp_sorted t1 W1 free1 If1)); eauto).
      assert (A2 : present mf2 (sneg (ssum k1)) = true) by (rewrite <- Hz; apply (present_iff _ _ (mp_sorted t2 W2 free2 If2)); eauto).
      change (t_edges p') with (t_edges p) in *. rewrite Z3 in *. cbn [combine] in *.
      assert (A3 : present mc1 (sneg (ssum k1)) = true).
      { apply (Spl (ssum k1) A1 A2); [apply Hkp; now left|]. rewrite <- Hz. apply Hkp. right. now left. }
      constructor; [|constructor; [|constructor]]; cbn [fst snd].
      - exists (merged_dim mf1 (ssum k1)). rewrite Z6, A1, A2, A3. split; [reflexivity|]. now rewrite Mf1.
      - exists (merged_dim mf2 (ssum k2)). rewrite Z7, Hz, sneg_invol, A1, A2, A3. split; [reflexivity|]. now rewrite Mf2. }
    assert (Hcm : concat (map lmaps [fl1; fl2]) = mf1 ++ mf2) by (cbn [map concat]; now rewrite app_nil_r, Mf1, Mf2).
    assert (Hcn : map fst (concat [fl1; fl2]) = free1 ++ free2) by (cbn [concat]; now rewrite app_nil_r, map_app, Nf1, Nf2).
    rewrite Hcm in R4, R6, R7. rewrite Hcn in R3, R7, RA.
    exists r, re. split.
    { unfold contract. rewrite Ns. unfold contract_without_fuse. rewrite Hpres, Hdup.
      rewrite !(free_legs_fst t1 (fun n => negb (mem_name n (map fst pairs))) W1), !(free_legs_fst t2 (fun n => negb (mem_name n (map snd pairs))) W2).
      fold free1 free2. rewrite Hplan. fold cs1 cs2. rewrite (no_deletions common Hinc). cbn [bind fst snd]. fold C1 C2. match goal with |- context [edge_operator E t1 ?x] => change x with a1 end. rewrite X1. cbn [bind]. match goal with |- context [edge_operator E t2 ?x] => change x with a2 end. rewrite Y1. cbn [bind].
      rewrite X3, Y3, X4. cbn [get_or_ub bind]. rewrite Z1. cbn [bind]. rewrite Z3. cbn [nth_error get_or_ub bind]. rewrite Z4. cbn [bind]. rewrite <- Z3. fold p'. fold fl1 fl2. fold rev3. fold a3. exact R1. }
    split; [exact R2|]. split; [exact R3|]. split; [exact R4|]. split; [exact R5|]. split; [exact R6|].
    split.
    { intro F. revert RA. change (t_edges p') with (t_edges p). rewrite Z3. cbn [combine].
      assert (HR3 : forall n (t : tensor S R) ns, wf_tensor t -> (t = t1 /\ ns = map fst pairs \/ t = t2 /\ ns = map snd pairs) -> In n (t_names t) -> ~ In n ns ->
         (forall n', In n' free1 -> In n' free2 -> False) -> mem_name n rev3 = earrow (edge_named (tlegs t) n)).
      { intros n t ns Wt Ht Hn Hns Hdj. destruct (leg_of_name t n Wt Hn) as [e He]. rewrite (leg_named t n e Wt He). unfold rev3. rewrite F.
        assert (Hmem : forall e', In (n, e') (filter (fun ne : nat * edge S => negb (mem_name (fst ne) (map fst pairs))) (tlegs t1) ++ filter (fun ne => negb (mem_name (fst ne) (map snd pairs))) (tlegs t2)) -> e' = e).
        { intros e' Hin. apply in_app_or in Hin as [Hin|Hin]; apply filter_In in Hin as [Hin Hq]; cbn [fst] in Hq; apply negb_true_iff, mem_name_false in Hq; destruct Ht as [[-> ->]|[-> ->]].
          - rewrite <- (leg_named t1 n e' W1 Hin). now apply leg_named.
          - exfalso. apply (Hdj n); apply filter_In; (split; [|now apply negb_true_iff, mem_name_false]); [apply in_combine_l in Hin; exact Hin|exact Hn].
          - exfalso. apply (Hdj n); apply filter_In; (split; [|now apply negb_true_iff, mem_name_false]); [exact Hn|apply in_combine_l in Hin; exact Hin].
          - rewrite <- (leg_named t2 n e' W2 Hin). now apply leg_named. }
        assert (Hin : In (n, e) (filter (fun ne : nat * edge S => negb (mem_name (fst ne) (map fst pairs))) (tlegs t1) ++ filter (fun ne => negb (mem_name (fst ne) (map snd pairs))) (tlegs t2))).
        { apply in_or_app. destruct Ht as [[-> ->]|[-> ->]]; [left|right]; apply filter_In; (split; [exact He|now apply negb_true_iff, mem_name_false]). }
        destruct (earrow e) eqn:Ea.
        - apply mem_name_In. apply in_map_iff. exists (n, e). split; [reflexivity|]. apply filter_In. auto.
        - apply mem_name_false. intro Hc. apply in_map_iff in Hc as [[n' e'] [Hnn Hc]]. cbn [fst] in Hnn. subst n'. apply filter_In in Hc as [Hc1 Hc2]. cbn [snd] in Hc2. rewrite (Hmem e' Hc1) in Hc2. congruence. }
      assert (Hdj : forall n, In n free1 -> In n free2 -> False).
      { intros n H1 H2. apply NoDup_app_inv in HD as [_ [_ HD']]. exact (HD' n H1 H2). }
      assert (Hf : forall n, In n free1 -> ~ In n (map fst pairs)) by (intros n Hn; apply filter_In in Hn as [_ Hn]; now apply negb_true_iff, mem_name_false in Hn).
      assert (Hf' : forall n, In n free2 -> ~ In n (map snd pairs)) by (intros n Hn; apply filter_In in Hn as [_ Hn]; now apply negb_true_iff, mem_name_false in Hn).
      assert (HRev2 : forall n, In n (t_names t2) -> mem_name n rev_2 = earrow (edge_named (tlegs t2) n)).
      { intros n Hn. unfold rev_2. rewrite F. destruct (leg_of_name t2 n W2 Hn) as [e He]. rewrite (leg_named t2 n e W2 He). destruct (earrow e) eqn:Ea.
        - apply mem_name_In. apply in_map_iff. exists (n, e). split; [reflexivity|]. apply filter_In. auto.
        - apply mem_name_false. intro Hc. apply in_map_iff in Hc as [[n' e'] [Hnn Hc]]. cbn [fst] in Hnn. subst n'. apply filter_In in Hc as [Hc1 Hc2]. cbn [snd] in Hc2.
          rewrite <- (leg_named t2 n e' W2 Hc1), (leg_named t2 n e W2 He) in Hc2. congruence. }
      assert (A1 : forall n, In n free1 -> arrow_valid (edge_named (tlegs t1) n) = true -> earrow p0 = false).
      { intros n Hn Hv. rewrite ZA0, XA2. apply (group_arrow E t1 a1 W1 eq_refl eq_refl eq_refl free1 ge1 false n F XA1 If1); [|exact Hn|exact Hv].
        intros m Hm. cbn [a1 args_1 a_reversed]. rewrite (in_rev_1 F m (If1 m Hm)). rewrite (proj2 (mem_name_false m _) (Hf m Hm)). now destruct (earrow (edge_named (tlegs t1) m)). }
      assert (A2 : forall n, In n free2 -> arrow_valid (edge_named (tlegs t2) n) = true -> earrow p1 = false).
      { intros n Hn Hv. rewrite ZA1, YA2. apply (group_arrow E t2 a2 W2 eq_refl eq_refl eq_refl free2 ge2 false n F YA1 If2); [|exact Hn|exact Hv].
        intros m Hm. cbn [a2 args_2 a_reversed]. rewrite (HRev2 m (If2 m Hm)). now destruct (earrow (edge_named (tlegs t2) m)). }
      intro RA. apply Forall2_imp with (2 := RA). intros n e [l [e0 [Hl [Hnl Hea]]]]. rewrite F in Hea. cbn [andb a3 a_reversed] in Hea. split; intros Hn Hv.
      - rewrite (HR3 n t1 (map fst pairs) W1 (or_introl (conj eq_refl eq_refl)) (If1 n Hn) (Hf n Hn) Hdj) in Hea. rewrite Hea.
        destruct Hl as [Hl|[Hl|[]]]; injection Hl as <- <-.
        + rewrite (A1 n Hn Hv). apply xorb_false_r.
        + exfalso. rewrite Nf2 in Hnl. exact (Hdj n Hn Hnl).
      - rewrite (HR3 n t2 (map snd pairs) W2 (or_intror (conj eq_refl eq_refl)) (If2 n Hn) (Hf' n Hn) Hdj) in Hea. rewrite Hea.
        destruct Hl as [Hl|[Hl|[]]]; injection Hl as <- <-.
        + exfalso. rewrite Nf1 in Hnl. exact (Hdj n Hnl Hn).
        + rewrite (A2 n Hn Hv). apply xorb_false_r. }
    intros pos pt Ha Hr Hz. specialize (R7 pos pt Ha Hr Hz). cbv zeta in R7. change (t_edges p') with (t_edges p) in R7. rewrite Z3 in R7. cbn [map combine forallb fst snd] in R7. rewrite Nf1, Nf2, Mf1, Mf2, andb_true_r in R7.
    destruct R7 as [V1 [V2 V3]].
    destruct (const_at_elem r pos pt R2) as [w [U1 U2]]; [now rewrite R3|exact V1|]. rewrite U2. f_equal.
    pose proof (assigns_coord pos _ pt Ha) as Hpt. rewrite map_app in Hpt. rewrite Hpt in Hr, Hz.
    apply in_range_app in Hr as [Hr1 Hr2]; [|unfold mf1, mp; now rewrite !map_length].
    set (s := total (map (coord pos) free1)) in *.
    assert (Ts : total (map (coord pos) free2) = sneg s). { apply sadd_eq_0. unfold s, total. rewrite <- ssum_app, <- map_app. exact Hz. }
    rewrite Ts in V2, V3.
    assert (A1 : present mf1 s = true) by (apply present_point; [apply mp_sorted; auto|exact Hr1]).
    assert (A2 : present mf2 (sneg s) = true) by (rewrite <- Ts; apply present_point; [apply mp_sorted; auto|exact Hr2]).
    set (j := snd (fuse mf1 (map (coord pos) free1))). set (q := snd (fuse mf2 (map (coord pos) free2))).
    assert (Hj : j < merged_dim mf1 s) by (apply fuse_bound; [apply mp_sorted; auto|exact Hr1]).
    assert (Hq : q < merged_dim mf2 (sneg s)) by (rewrite <- Ts; apply fuse_bound; [apply mp_sorted; auto|exact Hr2]).
    assert (Efu : [fuse mf1 (map (coord pos) free1); fuse mf2 (map (coord pos) free2)] = [(s, j); (sneg s, q)]).
    { rewrite <- Ts. reflexivity. }
    rewrite Efu in V2.
    (* the sum *)
    set (d1 := match mfind (if put1 then [s; sneg s] else [sneg s; s]) (t_blocks m1) with Some d => d | None => [] end).
    set (d2 := match mfind (if put2 then [sneg s; s] else [s; sneg s]) (t_blocks m2) with Some d => d | None => [] end).
    assert (Hsum : signed_sum t1 t2 pairs pos = rmul (alpha put1 put2 s) (term_sum put1 put2 (merged_dim mf1 s) (merged_dim mf2 (sneg s)) (merged_dim mc1 (sneg s)) d1 d2 j q)).
    { assert (Hal : forall l : list R, rmul (alpha put1 put2 s) (rsum l) = rsum (map (rmul (alpha put1 put2 s)) l)).
      { intro l. unfold alpha. destruct (bool_dec (@is_fermi S SS) true) as [F|F].
        - rewrite F. cbn [andb]. destruct (xorb put2 (negb put1) && sodd s).
          + rewrite (opp_one_mul EA (HN F)), (opp_sum EA (HN F)). f_equal. apply map_ext. intro x. symmetry. apply (opp_one_mul EA (HN F)).
          + rewrite (ea_mul_1 _ EA). f_equal. rewrite <- (map_id l) at 1. apply map_ext. intro x. symmetry. apply (ea_mul_1 _ EA).
        - apply not_true_is_false in F. rewrite F. cbn [andb]. rewrite (ea_mul_1 _ EA). f_equal. rewrite <- (map_id l) at 1. apply map_ext. intro x. symmetry. apply (ea_mul_1 _ EA). }
      unfold signed_sum, term_sum. rewrite Hal, map_map.
      replace (map (fun p2 : nat * nat => emap (edge_named (legs_of t1) (fst p2))) pairs) with (map (fun n => emap (edge_named (tlegs t1) n)) (map fst pairs)) by (rewrite map_map; reflexivity).
      assert (Hpp : forall pt2, in_range (map (fun n => emap (edge_named (tlegs t1) n)) (map fst pairs)) pt2 ->
        let pos1 := combine (map fst pairs) pt2 ++ pos in let pos2 := combine (map snd pairs) (map opposite pt2) ++ pos in
        (forall n, In n free1 -> mfind n pos1 = mfind n pos) /\ (forall n, In n free2 -> mfind n pos2 = mfind n pos) /\
        (forall a b, In (a, b) pairs -> exists x, mfind a (combine (map fst pairs) pt2) = Some x /\ mfind a pos1 = Some x /\ mfind b pos2 = Some (opposite x))).
      { intros pt2 Hpt2 pos1 pos2. pose proof (in_range_length _ _ Hpt2) as HL. rewrite !map_length in HL. split; [|split].
        - intros n Hn. unfold pos1. rewrite mfind_app, find_combine_none; [reflexivity|rewrite map_length; lia|]. apply filter_In in Hn as [_ Hn]. apply negb_true_iff in Hn. now apply mem_name_false in Hn.
        - intros n Hn. unfold pos2. rewrite mfind_app, find_combine_none; [reflexivity|rewrite !map_length; lia|]. apply filter_In in Hn as [_ Hn]. apply negb_true_iff in Hn. now apply mem_name_false in Hn.
        - intros a b Hab. apply In_nth_error in Hab as [u Hu].
          destruct (found_pair (map fst pairs) (map snd pairs) opposite pt2 u a b N1 N2) as [w' [_ [O2 O3]]]; try (rewrite map_length; lia).
          { rewrite nth_error_map, Hu. reflexivity. } { rewrite nth_error_map, Hu. reflexivity. }
          exists w'. split; [exact O2|]. unfold pos1, pos2. rewrite !mfind_app, O2, O3. auto. }
      assert (Hc1 : forall pt2, in_range (map (fun n => emap (edge_named (tlegs t1) n)) (map fst pairs)) pt2 ->
         map (coord (combine (map fst pairs) pt2 ++ pos)) cs1 = map (coord (combine (map fst pairs) pt2)) cs1 /\
         map (coord (combine (map snd pairs) (map opposite pt2) ++ pos)) cs2 = map opposite (map (coord (combine (map fst pairs) pt2)) cs1) /\
         map (coord (combine (map fst pairs) pt2 ++ pos)) free1 = map (coord pos) free1 /\
         map (coord (combine (map snd pairs) (map opposite pt2) ++ pos)) free2 = map (coord pos) free2).
      { intros pt2 Hpt2. destruct (Hpp pt2 Hpt2) as [O1 [O2 O3]]. split; [|split; [|split]].
        - unfold cs1. rewrite !map_map. apply map_ext_in. intros [a b] Hab. destruct (O3 a b (Hinc _ Hab)) as [x [E1 [E2 E3]]]. unfold coord. cbn [fst]. now rewrite E1, E2.
        - unfold cs1, cs2. rewrite !map_map. apply map_ext_in. intros [a b] Hab. destruct (O3 a b (Hinc _ Hab)) as [x [E1 [E2 E3]]]. unfold coord. cbn [fst snd]. now rewrite E1, E3.
        - apply map_ext_in. intros n Hn. unfold coord. now rewrite O1.
        - apply map_ext_in. intros n Hn. unfold coord. now rewrite O2. }
      assert (Has : forall pt2, in_range (map (fun n => emap (edge_named (tlegs t1) n)) (map fst pairs)) pt2 ->
         let pos1 := combine (map fst pairs) pt2 ++ pos in let pos2 := combine (map snd pairs) (map opposite pt2) ++ pos in
         assigns pos1 (t_names t1) (map (coord pos1) (t_names t1)) /\ in_range (maps_of (t_edges t1)) (map (coord pos1) (t_names t1)) /\
         assigns pos2 (t_names t2) (map (coord pos2) (t_names t2)) /\ in_range (maps_of (t_edges t2)) (map (coord pos2) (t_names t2)) /\
         total (map (coord pos1) cs1) = total pt2).
      { intros pt2 Hpt2 pos1 pos2. destruct (Hpp pt2 Hpt2) as [O1 [O2 O3]]. destruct (Hc1 pt2 Hpt2) as [T1 [T2 [T3 T4]]].
        fold pos1 in O1, T1, T3. fold pos2 in O2, T2, T4.
        assert (Hlen : length (map fst pairs) = length pt2) by (apply in_range_length in Hpt2; rewrite map_length in Hpt2; lia).
        assert (Rc1 : in_range mc1 (map (coord (combine (map fst pairs) pt2)) cs1)).
        { unfold mc1, mp. apply (in_range_perm _ _ (map fst pairs)); [intros x Hx; eapply Permutation_in; [apply Permutation_sym; exact Q1|exact Hx]|]. now rewrite combine_coords. }
        assert (Sp : forall n, In n (t_names t1) -> In n free1 \/ In n cs1) by (intros n Hn; apply in_app_or; eapply Permutation_in; [exact G1|exact Hn]).
        assert (Sp2 : forall n, In n (t_names t2) -> In n free2 \/ In n cs2) by (intros n Hn; apply in_app_or; eapply Permutation_in; [exact G2|exact Hn]).
        assert (Ap : forall n, In n (free1 ++ free2) -> exists x, mfind n pos = Some x).
        { intros n Hn. apply In_nth_error in Hn as [i Hi]. destruct (nth_same_length _ _ _ pt i n (assigns_length _ _ _ Ha) Hi) as [x Hx]. exists x. exact (assigns_nth _ _ _ _ _ _ Ha Hi Hx). }
        assert (As1 : assigns pos1 (t_names t1) (map (coord pos1) (t_names t1))).
        { unfold assigns. rewrite map_map. apply map_ext_in. intros n Hn. unfold coord. destruct (Sp n Hn) as [Hf|Hc].
          - rewrite (O1 n Hf). destruct (Ap n) as [x ->]; [apply in_or_app; auto|reflexivity].
          - apply in_map_iff in Hc as [[a b] [<- Hab]]. destruct (O3 a b (Hinc _ Hab)) as [x [_ [E2 _]]]. cbn [fst]. unfold pos1. now rewrite E2. }
        assert (As2 : assigns pos2 (t_names t2) (map (coord pos2) (t_names t2))).
        { unfold assigns. rewrite map_map. apply map_ext_in. intros n Hn. unfold coord. destruct (Sp2 n Hn) as [Hf|Hc].
          - rewrite (O2 n Hf). destruct (Ap n) as [x ->]; [apply in_or_app; auto|reflexivity].
          - apply in_map_iff in Hc as [[a b] [<- Hab]]. destruct (O3 a b (Hinc _ Hab)) as [x [_ [_ E3]]]. cbn [snd]. unfold pos2. now rewrite E3. }
        split; [exact As1|]. split; [|split; [exact As2|split]].
        - rewrite <- (legs_to_edges t1 W1). unfold maps_of. rewrite map_map. apply in_range_named. intros n Hn. destruct (Sp n Hn) as [Hf|Hc].
          + rewrite <- T3 in Hr1. unfold mf1, mp in Hr1. rewrite in_range_named in Hr1. exact (Hr1 n Hf).
          + rewrite <- T1 in Rc1. unfold mc1, mp in Rc1. rewrite in_range_named in Rc1. exact (Rc1 n Hc).
        - rewrite <- (legs_to_edges t2 W2). unfold maps_of. rewrite map_map. apply in_range_named. intros n Hn. destruct (Sp2 n Hn) as [Hf|Hc].
          + rewrite <- T4 in Hr2. unfold mf2, mp in Hr2. rewrite in_range_named in Hr2. exact (Hr2 n Hf).
          + apply (opp_range mc1 mc2) in Rc1; [|exact Hopp]. rewrite <- T2 in Rc1. unfold mc2, mp in Rc1. rewrite in_range_named in Rc1. exact (Rc1 n Hc).
        - rewrite T1. rewrite <- (total_perm _ _ _ Q1). now rewrite combine_coords. }
      replace (merged_dim mc1 (sneg s)) with (merged_dim (map (fun n => emap (edge_named (tlegs t1) n)) cs1) (sneg s)) by reflexivity.
      apply (flatten_sym EA); [exact N1|exact Q1|intros n Hn; apply named_sorted; auto| |].
      - intros pt2 Hpt2 Hne. destruct (Has pt2 Hpt2) as [L1 [L2 [_ [_ L5]]]]. destruct (Hc1 pt2 Hpt2) as [_ [_ [T3 _]]].
        cbv zeta. unfold element at 1. rewrite (const_at_forbidden t1 _ _ W1 L1 L2).
        { rewrite (ea_mul_0 _ EA). destruct (bool_dec (@is_fermi S SS) true) as [F|F]; [apply (signed_zero EA (HN F))|]. apply not_true_is_false in F. now rewrite (pair_sign_bose F). }
        intro Hc. apply Hne. rewrite <- L5. apply sadd_eq_0. unfold s. rewrite <- T3. unfold total. rewrite <- ssum_app, <- map_app, <- map_app.
        rewrite <- Hc. apply ssum_perm. apply Permutation_map, Permutation_map. now apply Permutation_sym.
      - intros pt2 Hpt2 Hs. destruct (Has pt2 Hpt2) as [L1 [L2 [L3 [L4 L5]]]]. destruct (Hc1 pt2 Hpt2) as [T1 [T2 [T3 T4]]].
        set (pos1 := combine (map fst pairs) pt2 ++ pos) in *. set (pos2 := combine (map snd pairs) (map opposite pt2) ++ pos) in *.
        assert (A3 : present mc1 (sneg s) = true).
        { rewrite <- Hs, <- L5. apply present_point; [apply mp_sorted; auto|]. rewrite (assigns_coord pos1 _ _ L1) in L2. unfold mc1. eapply (mp_range t1 W1 pos1); eauto. }
        destruct (X7 s A1 A3) as [da [D1 [_ D3]]]. destruct (Y7 (sneg s) A2) as [db [D4 [_ D6]]]; [rewrite K1; exact A3|]. rewrite sneg_invol in D4, D6. rewrite K2' in D6.
        assert (Eda : d1 = da) by (unfold d1; now rewrite D1). assert (Edb : d2 = db) by (unfold d2; now rewrite D4). rewrite Eda, Edb.
        specialize (D3 pos1 _ L1 L2). specialize (D6 pos2 _ L3 L4). rewrite T3 in D3. rewrite T4 in D6.
        assert (Tc2 : total (map (coord pos2) cs2) = s) by (rewrite T2, opposite_total, <- T1, L5, Hs; apply sneg_invol).
        specialize (D3 eq_refl). specialize (D3 (eq_trans L5 Hs)). specialize (D6 Ts Tc2). cbv zeta.
        assert (Hfound : forall (ps : position) ns, assigns ps ns (map (coord ps) ns) -> forall n, In n ns -> mfind n ps <> None).
        { clear. intros ps ns H n Hn Hc. unfold assigns in H. rewrite map_map in H. assert (X := proj1 map_ext_in_iff H n Hn). cbv beta in X. unfold position in *. congruence. }
        pose proof (sign_parity common put1 put2 pos1 pos2 s Hcp (Hfound _ _ L1) (Hfound _ _ L3)) as Sg. fold a1 a2 cs1 cs2 in Sg. rewrite T3, T4 in Sg.
        specialize (Sg eq_refl (eq_trans L5 Hs) Ts Tc2).
        transitivity (rmul (alpha put1 put2 s) (rmul (signed ropp (sign_number t1 a1 pos1) (element t1 pos1)) (signed ropp (sign_number t2 a2 pos2) (element t2 pos2)))).
        { destruct (bool_dec (@is_fermi S SS) true) as [F|F].
          - rewrite (signed_mul EA (HN F)). unfold alpha. unfold signed. rewrite Sg, odd_plus. destruct (is_fermi && xorb put2 (negb put1) && sodd s).
            + rewrite (opp_one_mul EA (HN F)). destruct (Nat.odd (sign_number t1 a1 pos1)), (Nat.odd (sign_number t2 a2 pos2)); cbn [xorb]; rewrite ?(opp_invol EA (HN F)); reflexivity.
            + rewrite (ea_mul_1 _ EA). destruct (Nat.odd (sign_number t1 a1 pos1)), (Nat.odd (sign_number t2 a2 pos2)); reflexivity.
          - apply not_true_is_false in F. rewrite (pair_sign_bose F), !sign_bose by exact F. unfold alpha. rewrite F. cbn [andb]. rewrite (ea_mul_1 _ EA). reflexivity. }
        rewrite <- D3, <- D6.
        unfold joined. rewrite T1, T2, T3, T4. fold (mp t1 free1) (mp t1 cs1) (mp t2 free2) (mp t2 cs2). fold mf1 mc1 mf2 mc2. fold j q.
        rewrite K3; [reflexivity|]. rewrite <- T1. unfold mc1. eapply (mp_range t1 W1 pos1); eauto. }
    destruct (present mc1 (sneg s)) eqn:A3.
    - destruct V2 as [_ [v [V2 V4]]].
      { unfold kp, mmem. rewrite Z6, Z7, sneg_invol, A1, A2, A3. cbn [andb]. now destruct (Nat.leb (length fl1) 1), (Nat.leb (length fl2) 1). }
      unfold signed in V4. rewrite (Hs3 pos) in V4. rewrite U1 in V4. injection V4 as <-. destruct (X7 s A1 A3) as [da [D1 _]]. destruct (Y7 (sneg s) A2) as [db [D4 _]]; [rewrite K1; exact A3|]. rewrite sneg_invol in D4.
      change (t_core p') with (mkCore (t_edges p) blocks) in V2. rewrite (Z8 s da db j q A1 A3 A2 D1 D4 Hj Hq) in V2. injection V2 as <-. rewrite Hsum. unfold d1, d2. now rewrite D1, D4.
    - assert (Hkf : kp fl1 p0 s && kp fl2 p1 (sneg s) = false).
      { destruct (kp fl1 p0 s && kp fl2 p1 (sneg s)) eqn:Ek; [|reflexivity]. apply andb_true_iff in Ek as [Ek1 Ek2]. pose proof (Spl s A1 A2 Ek1 Ek2). congruence. }
      rewrite (V3 Hkf Ns) in U1. injection U1 as <-. rewrite Hsum. rewrite (absent_dim mc1 (sneg s) A3). unfold term_sum. cbn [seq map]. symmetry. rewrite (ea_mul_comm _ EA). apply (ea_mul_0 _ EA).
  Qed.
End Sym.

Lemma zipped_in : forall A B (P : A -> B -> Prop) l1 l2 x y, Forall2 P l1 l2 -> In (x, y) (combine l1 l2) -> P x y.
Proof. intros A B P l1 l2 x y H. induction H; cbn [combine]; intro E; [destruct E|destruct E as [E|E]]; [injection E as <- <-; assumption|auto]. Qed.
(** the same in the words of Spec/Contract.v *)
Section Stated.
  Context {S R : Type} {SS : Sym S} {SL : SymLaws S} {RR : Scalar R}.
  Lemma bose_sum : @is_fermi S SS = false -> forall (t1 t2 : tensor S R) pairs pos, signed_sum t1 t2 pairs pos = contract_sum t1 t2 pairs pos.
  Proof. intros F t1 t2 pairs pos. unfold signed_sum, contract_sum. f_equal. apply map_ext. intro pt. cbv zeta. now rewrite (pair_sign_bose t1 t2 pairs F). Qed.

  Lemma valid_result : forall (t1 t2 r : tensor S R) pairs re, wf_tensor t1 -> wf_tensor t2 ->
    map emap re = map (fun n => emap (edge_named (legs_of t1) n)) (free_names (t_names t1) (map fst pairs)) ++
                  map (fun n => emap (edge_named (legs_of t2) n)) (free_names (t_names t2) (map snd pairs)) ->
    t_edges r = prune_from (t_blocks r) 0 re ->
    map fst (t_blocks r) = map fst (block_list (map (fun n => emap (edge_named (legs_of t1) n)) (free_names (t_names t1) (map fst pairs)) ++
                  map (fun n => emap (edge_named (legs_of t2) n)) (free_names (t_names t2) (map snd pairs)))) ->
    forall pt, valid_pt (t_core r) pt <->
        in_range (map (fun n => emap (edge_named (legs_of t1) n)) (free_names (t_names t1) (map fst pairs)) ++
                  map (fun n => emap (edge_named (legs_of t2) n)) (free_names (t_names t2) (map snd pairs))) pt /\ ssum (map fst pt) = szero.
  Proof.
    intros t1 t2 r pairs re W1 W2 Hm He Hk.
    match goal with |- forall pt, _ <-> in_range ?m pt /\ _ => change (maps_of re = m) in Hm; change (map fst (t_blocks r) = map fst (block_list m)) in Hk; set (ms := m) in * end.
    assert (Hs : sorted_maps ms).
    { apply Forall_forall. intros m Hin. apply in_app_or in Hin as [Hin|Hin]; apply in_map_iff in Hin as [n [<- Hin]]; apply filter_In in Hin as [Hin _].
      - destruct (leg_of_name t1 n W1 Hin) as [e Hle]. unfold legs_of. rewrite (leg_named t1 n e W1 Hle). exact (leg_sorted t1 n e W1 Hle).
      - destruct (leg_of_name t2 n W2 Hin) as [e Hle]. unfold legs_of. rewrite (leg_named t2 n e W2 Hle). exact (leg_sorted t2 n e W2 Hle). }
    intro pt. unfold valid_pt. change (c_edges (t_core r)) with (t_edges r). rewrite He. split; intros [H1 H2]; (split; [|exact H2]).
    - apply prune_range_inv in H1. now rewrite Hm in H1.
    - apply prune_range; [now rewrite Hm| |now rewrite Hm]. rewrite Hk. apply in_range_dims in H1 as [ds [H1 _]]; [|exact Hs].
      apply in_map_iff. exists (map fst pt, prod ds). split; [reflexivity|]. apply in_block_list. split; [|exact H2]. apply dims_of_choice; eauto.
  Qed.

  (** all symmetries; fermionic tensors with at most one pair *)
  Lemma contract_edges_at : @is_nosym S SS = false -> exact_arithmetic R -> (is_fermi = true -> exact_negation R) ->
    forall (E : @env R) (I : internal) (t1 t2 : tensor S R) pairs, i_contract_1 I <> i_contract_2 I ->
    wf_tensor t1 -> wf_tensor t2 -> t_blocks t1 <> [] -> length pairs <= 1 \/ (forall s : S, sneg s = s) -> (is_fermi = true -> length pairs <= 1) ->
    incl (map fst pairs) (t_names t1) -> incl (map snd pairs) (t_names t2) -> NoDup (map fst pairs) -> NoDup (map snd pairs) ->
    (forall a b, In (a, b) pairs -> (is_fermi = true -> earrow (edge_named (legs_of t1) a) = negb (earrow (edge_named (legs_of t2) b))) /\
       forall s d, In (s, d) (emap (edge_named (legs_of t1) a)) <-> In (sneg s, d) (emap (edge_named (legs_of t2) b))) ->
    NoDup (free_names (t_names t1) (map fst pairs) ++ free_names (t_names t2) (map snd pairs)) ->
    (is_fermi = true -> group_arrow_known (env_arrow E) t1 (free_names (t_names t1) (map fst pairs)) /\ group_arrow_known (env_arrow E) t1 (map fst pairs) /\
      group_arrow_known (env_arrow E) t2 (free_names (t_names t2) (map snd pairs)) /\ group_arrow_known (env_arrow E) t2 (map snd pairs)) ->
    exists r, contract E I t1 t2 pairs = Ok r /\ wf_tensor r /\
      t_names r = free_names (t_names t1) (map fst pairs) ++ free_names (t_names t2) (map snd pairs) /\
      (exists re, maps_of re = map (fun n => emap (edge_named (legs_of t1) n)) (free_names (t_names t1) (map fst pairs)) ++
                  map (fun n => emap (edge_named (legs_of t2) n)) (free_names (t_names t2) (map snd pairs)) /\ t_edges r = prune_from (t_blocks r) 0 re) /\
      map fst (t_blocks r) = map fst (block_list (map (fun n => emap (edge_named (legs_of t1) n)) (free_names (t_names t1) (map fst pairs)) ++
                  map (fun n => emap (edge_named (legs_of t2) n)) (free_names (t_names t2) (map snd pairs)))) /\
      (forall pt, valid_pt (t_core r) pt <->
        in_range (map (fun n => emap (edge_named (legs_of t1) n)) (free_names (t_names t1) (map fst pairs)) ++
                  map (fun n => emap (edge_named (legs_of t2) n)) (free_names (t_names t2) (map snd pairs))) pt /\ ssum (map fst pt) = szero) /\
      (is_fermi = true -> forall n, In n (free_names (t_names t1) (map fst pairs)) -> arrow_valid (edge_named (legs_of t1) n) = true ->
        earrow (edge_named (legs_of r) n) = earrow (edge_named (legs_of t1) n)) /\
      (is_fermi = true -> forall n, In n (free_names (t_names t2) (map snd pairs)) -> arrow_valid (edge_named (legs_of t2) n) = true ->
        earrow (edge_named (legs_of r) n) = earrow (edge_named (legs_of t2) n)) /\
      forall pos pt, assigns pos (t_names r) pt -> valid_pt (t_core r) pt -> const_at r pos = Ok (signed_sum t1 t2 pairs pos).
  Proof.
    intros Ns EA EN E I t1 t2 pairs HI W1 W2 B1 HP HL P1 P2 N1 N2 HM HD HK.
    assert (K : forall (t : tensor S R) l1 l2, wf_tensor t -> incl l1 (t_names t) -> incl l2 (t_names t) -> group_arrow_known (env_arrow E) t l1 -> group_arrow_known (env_arrow E) t l2 ->
      env_arrow E <> None \/ forall l, In l [l1; l2] -> length l = 1 \/ exists n e, In n l /\ In (n, e) (tlegs t) /\ arrow_valid e = true).
    { clear. intros t l1 l2 W I1 I2 [H1|H1] [H2|H2]; try (left; assumption). right.
      assert (Q : forall l, incl l (t_names t) -> (length l = 1 \/ exists n, In n l /\ arrow_valid (edge_named (legs_of t) n) = true) ->
        length l = 1 \/ exists n e, In n l /\ In (n, e) (tlegs t) /\ arrow_valid e = true).
      { intros l Il [H|[n [Hn Hv]]]; [now left|right]. destruct (leg_of_name t n W (Il n Hn)) as [e He]. exists n, e. split; [exact Hn|]. split; [exact He|].
        unfold legs_of in Hv. now rewrite (leg_named t n e W He) in Hv. }
      intros l [<-|[<-|[]]]; [now apply Q|now apply Q]. }
    assert (I1 : incl (free_names (t_names t1) (map fst pairs)) (t_names t1)) by (intros n Hn; now apply filter_In in Hn).
    assert (I2 : incl (free_names (t_names t2) (map snd pairs)) (t_names t2)) by (intros n Hn; now apply filter_In in Hn).
    destruct (contract_signed Ns EA E I t1 t2 pairs HI W1 W2 B1 P1 P2 N1 N2 (fun a b s d H => proj2 (HM a b H) s d) HP HL EN
      (fun F a b H => proj1 (HM a b H) F) HD (fun F => K t1 _ _ W1 I1 P1 (proj1 (HK F)) (proj1 (proj2 (HK F)))) (fun F => K t2 _ _ W2 I2 P2 (proj1 (proj2 (proj2 (HK F)))) (proj2 (proj2 (proj2 (HK F)))))) as [r [re [Hr [Wr [Hn [Hm [He [Hk [HA Hv]]]]]]]]].
    pose proof (valid_result t1 t2 r pairs re W1 W2 Hm He Hk) as V.
    assert (Hin : forall n, In n (t_names r) -> exists e, In (n, e) (combine (t_names r) re) /\ earrow (edge_named (legs_of r) n) = earrow e).
    { intros n Hin. destruct (leg_of_name r n Wr Hin) as [e Hle]. unfold legs_of. rewrite (leg_named r n e Wr Hle). rewrite He in Hle.
      clear - Hle. revert Hle. generalize (t_names r) as ns. generalize (t_blocks r) as ks. intros ks.
      generalize 0 as i. induction re as [|x re IH]; intros i [|m ns] H; try contradiction; cbn [prune_from combine] in H.
      - destruct H as [H|H]; [injection H as <- <-; exists x; split; [now left|reflexivity]|]. destruct (IH _ _ H) as [e' [H1 H2]]. exists e'. split; [now right|exact H2]. }
    exists r. split; [exact Hr|]. split; [exact Wr|]. split; [exact Hn|]. split; [exists re; auto|]. split; [exact Hk|]. split; [exact V|].
    assert (Q : is_fermi = true -> forall n, In n (t_names r) -> exists e : edge S, earrow (edge_named (legs_of r) n) = earrow e /\
       (In n (free_names (t_names t1) (map fst pairs)) -> arrow_valid (edge_named (tlegs t1) n) = true -> earrow e = earrow (edge_named (tlegs t1) n)) /\
       (In n (free_names (t_names t2) (map snd pairs)) -> arrow_valid (edge_named (tlegs t2) n) = true -> earrow e = earrow (edge_named (tlegs t2) n))).
    { intros F n Hx. specialize (HA F). destruct (Hin n Hx) as [e [H1 H2]]. exists e. split; [exact H2|]. rewrite Hn in H1. exact (zipped_in _ _ _ _ _ n e HA H1). }
    split; [|split].
    - intros F n H1 H2. destruct (Q F n) as [e [Q1 [Q2 _]]]; [rewrite Hn; apply in_or_app; now left|]. rewrite Q1. now apply Q2.
    - intros F n H1 H2. destruct (Q F n) as [e [Q1 [_ Q2]]]; [rewrite Hn; apply in_or_app; now right|]. rewrite Q1. now apply Q2.
    - intros pos pt Ha Hpt. apply V in Hpt as [Q1 Q2]. apply (Hv pos pt); [|exact Q1|exact Q2]. rewrite Hn in Ha. exact Ha.
  Qed.
  Lemma contract_at : @is_nosym S SS = false -> exact_arithmetic R -> (is_fermi = true -> exact_negation R) ->
    forall (E : @env R) (I : internal) (t1 t2 : tensor S R) pairs, i_contract_1 I <> i_contract_2 I ->
    wf_tensor t1 -> wf_tensor t2 -> t_blocks t1 <> [] -> length pairs <= 1 \/ (forall s : S, sneg s = s) -> (is_fermi = true -> length pairs <= 1) ->
    incl (map fst pairs) (t_names t1) -> incl (map snd pairs) (t_names t2) -> NoDup (map fst pairs) -> NoDup (map snd pairs) ->
    (forall a b, In (a, b) pairs -> (is_fermi = true -> earrow (edge_named (legs_of t1) a) = negb (earrow (edge_named (legs_of t2) b))) /\
       forall s d, In (s, d) (emap (edge_named (legs_of t1) a)) <-> In (sneg s, d) (emap (edge_named (legs_of t2) b))) ->
    NoDup (free_names (t_names t1) (map fst pairs) ++ free_names (t_names t2) (map snd pairs)) ->
    (is_fermi = true -> group_arrow_known (env_arrow E) t1 (free_names (t_names t1) (map fst pairs)) /\ group_arrow_known (env_arrow E) t1 (map fst pairs) /\
      group_arrow_known (env_arrow E) t2 (free_names (t_names t2) (map snd pairs)) /\ group_arrow_known (env_arrow E) t2 (map snd pairs)) ->
    exists r, contract E I t1 t2 pairs = Ok r /\ wf_tensor r /\
      t_names r = free_names (t_names t1) (map fst pairs) ++ free_names (t_names t2) (map snd pairs) /\
      (forall pt, valid_pt (t_core r) pt <->
        in_range (map (fun n => emap (edge_named (legs_of t1) n)) (free_names (t_names t1) (map fst pairs)) ++
                  map (fun n => emap (edge_named (legs_of t2) n)) (free_names (t_names t2) (map snd pairs))) pt /\ ssum (map fst pt) = szero) /\
      (is_fermi = true -> forall n, In n (free_names (t_names t1) (map fst pairs)) -> arrow_valid (edge_named (legs_of t1) n) = true ->
        earrow (edge_named (legs_of r) n) = earrow (edge_named (legs_of t1) n)) /\
      (is_fermi = true -> forall n, In n (free_names (t_names t2) (map snd pairs)) -> arrow_valid (edge_named (legs_of t2) n) = true ->
        earrow (edge_named (legs_of r) n) = earrow (edge_named (legs_of t2) n)) /\
      forall pos pt, assigns pos (t_names r) pt -> valid_pt (t_core r) pt -> const_at r pos = Ok (signed_sum t1 t2 pairs pos).
  Proof.
    intros Ns EA EN E I t1 t2 pairs HI W1 W2 B1 HP HL P1 P2 N1 N2 HM HD HK.
    destruct (contract_edges_at Ns EA EN E I t1 t2 pairs HI W1 W2 B1 HP HL P1 P2 N1 N2 HM HD HK) as [r [H1 [H2 [H3 [_ [_ H]]]]]]. exists r. auto.
  Qed.
  Lemma contract_sym_at : @is_nosym S SS = false -> @is_fermi S SS = false -> exact_arithmetic R ->
    forall (E : @env R) (I : internal) (t1 t2 : tensor S R) pairs, i_contract_1 I <> i_contract_2 I ->
    wf_tensor t1 -> wf_tensor t2 -> t_blocks t1 <> [] ->
    incl (map fst pairs) (t_names t1) -> incl (map snd pairs) (t_names t2) -> NoDup (map fst pairs) -> NoDup (map snd pairs) ->
    (forall a b s d, In (a, b) pairs -> In (s, d) (emap (edge_named (legs_of t1) a)) <-> In (sneg s, d) (emap (edge_named (legs_of t2) b))) ->
    length pairs <= 1 \/ (forall s : S, sneg s = s) ->
    NoDup (free_names (t_names t1) (map fst pairs) ++ free_names (t_names t2) (map snd pairs)) ->
    exists r, contract E I t1 t2 pairs = Ok r /\ wf_tensor r /\
      t_names r = free_names (t_names t1) (map fst pairs) ++ free_names (t_names t2) (map snd pairs) /\
      (forall pt, valid_pt (t_core r) pt <->
        in_range (map (fun n => emap (edge_named (legs_of t1) n)) (free_names (t_names t1) (map fst pairs)) ++
                  map (fun n => emap (edge_named (legs_of t2) n)) (free_names (t_names t2) (map snd pairs))) pt /\ ssum (map fst pt) = szero) /\
      forall pos pt, assigns pos (t_names r) pt -> valid_pt (t_core r) pt -> const_at r pos = Ok (contract_sum t1 t2 pairs pos).
  Proof.
    intros Ns Nf EA E I t1 t2 pairs HI W1 W2 B1 P1 P2 N1 N2 HM HP HD.
    assert (NF : forall P : Prop, is_fermi = true -> P) by (intros P F; rewrite F in Nf; discriminate).
    destruct (contract_at Ns EA (NF _) E I t1 t2 pairs HI W1 W2 B1 HP (NF _) P1 P2 N1 N2
      (fun a b H => conj (NF _) (fun s d => HM a b s d H)) HD (NF _)) as [r [H1 [H2 [H3 [H4 [_ [_ H5]]]]]]].
    exists r. split; [exact H1|]. split; [exact H2|]. split; [exact H3|]. split; [exact H4|].
    intros pos pt Ha Hpt. rewrite <- (bose_sum Nf). exact (H5 pos pt Ha Hpt).
  Qed.

  (** fermionic tensors, at most one pair *)
  Lemma contract_fermi_at : @is_nosym S SS = false -> @is_fermi S SS = true -> exact_arithmetic R -> exact_negation R ->
    forall (E : @env R) (I : internal) (t1 t2 : tensor S R) pairs, i_contract_1 I <> i_contract_2 I ->
    wf_tensor t1 -> wf_tensor t2 -> t_blocks t1 <> [] -> length pairs <= 1 ->
    incl (map fst pairs) (t_names t1) -> incl (map snd pairs) (t_names t2) ->
    (forall a b, In (a, b) pairs -> earrow (edge_named (legs_of t1) a) = negb (earrow (edge_named (legs_of t2) b)) /\
       forall s d, In (s, d) (emap (edge_named (legs_of t1) a)) <-> In (sneg s, d) (emap (edge_named (legs_of t2) b))) ->
    NoDup (free_names (t_names t1) (map fst pairs) ++ free_names (t_names t2) (map snd pairs)) ->
    group_arrow_known (env_arrow E) t1 (free_names (t_names t1) (map fst pairs)) -> group_arrow_known (env_arrow E) t1 (map fst pairs) ->
    group_arrow_known (env_arrow E) t2 (free_names (t_names t2) (map snd pairs)) -> group_arrow_known (env_arrow E) t2 (map snd pairs) ->
    exists r, contract E I t1 t2 pairs = Ok r /\ wf_tensor r /\
      t_names r = free_names (t_names t1) (map fst pairs) ++ free_names (t_names t2) (map snd pairs) /\
      (forall pt, valid_pt (t_core r) pt <->
        in_range (map (fun n => emap (edge_named (legs_of t1) n)) (free_names (t_names t1) (map fst pairs)) ++
                  map (fun n => emap (edge_named (legs_of t2) n)) (free_names (t_names t2) (map snd pairs))) pt /\ ssum (map fst pt) = szero) /\
      (forall n, In n (free_names (t_names t1) (map fst pairs)) -> arrow_valid (edge_named (legs_of t1) n) = true ->
        earrow (edge_named (legs_of r) n) = earrow (edge_named (legs_of t1) n)) /\
      (forall n, In n (free_names (t_names t2) (map snd pairs)) -> arrow_valid (edge_named (legs_of t2) n) = true ->
        earrow (edge_named (legs_of r) n) = earrow (edge_named (legs_of t2) n)) /\
      forall pos pt, assigns pos (t_names r) pt -> valid_pt (t_core r) pt -> const_at r pos = Ok (signed_sum t1 t2 pairs pos).
  Proof.
    intros Ns F EA EN E I t1 t2 pairs HI W1 W2 B1 HL P1 P2 HM HD K1 K2 K3 K4.
    assert (N1 : NoDup (map fst pairs)) by (destruct pairs as [|x [|? ?]]; simpl in HL; try lia; repeat constructor; simpl; tauto).
    assert (N2 : NoDup (map snd pairs)) by (destruct pairs as [|x [|? ?]]; simpl in HL; try lia; repeat constructor; simpl; tauto).
    destruct (contract_at Ns EA (fun _ => EN) E I t1 t2 pairs HI W1 W2 B1 (or_introl HL) (fun _ => HL) P1 P2 N1 N2
      (fun a b H => conj (fun _ => proj1 (HM a b H)) (proj2 (HM a b H))) HD (fun _ => conj K1 (conj K2 (conj K3 K4)))) as [r [H1 [H2 [H3 [H4 [H5 [H6 H7]]]]]]].
    exists r. split; [exact H1|]. split; [exact H2|]. split; [exact H3|]. split; [exact H4|]. split; [exact (H5 F)|]. split; [exact (H6 F)|exact H7].
  Qed.
End Stated.
