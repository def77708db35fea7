(** Contraction of tensors without symmetry is linear in both tensors. *)
From Coq Require Import String Ascii List Bool Arith Lia Sorted Permutation.
From Verif Require Import Base.Outcome Base.SMap Model.Symmetry Model.Edge Model.Core Model.EdgeOperator Model.Contract Model.Misc Model.Elementwise
  Spec.Blocks Spec.Fuse Spec.Relabel Spec.Contract Spec.Plain Spec.Svd Spec.Grid Spec.Linear Proof.SymmetryFacts Proof.LoopFacts Proof.CoreFacts Proof.ElemFacts Proof.LegFacts Proof.SumFacts Proof.TransposeNames Proof.NamedOperator Proof.RenameFacts Proof.RegroupFacts Proof.MergeNames Proof.ContractPlain Proof.HotContract Proof.ExactApply
  Proof.ContractNames Proof.PlainFacts Proof.PlainElem Proof.SumBonds Proof.FactorFacts Proof.AssociatePlain.
Import ListNotations.

Section Linear.
  Context {R : Type} {RR : Scalar R}.
  Hypotheses (EA : exact_arithmetic R) (MA : associative_product R) (MD : distributive_product R).
  Variables (E : @env R) (J : internal).
  Hypothesis HJ : NoDup [i_contract_0 J; i_contract_1 J; i_contract_2 J].

  Lemma Sums_add : forall ds (f g : list nat -> R), Sums ds (fun l => radd (f l) (g l)) = radd (Sums ds f) (Sums ds g).
  Proof.
    induction ds as [|d ds IH]; intros f g; cbn [Sums]; [reflexivity|]. unfold Sum. rewrite <- (rsum_add EA). f_equal. apply map_ext. intros i. apply IH.
  Qed.
  Lemma joined_index : forall l idx a n, length l = length idx -> (In n l -> exists i, nth_error l i = Some n /\ nth_error idx i = Some (index (combine l idx ++ a) n)) /\ (~ In n l -> index (combine l idx ++ a) n = index a n).
  Proof.
    induction l as [|x l IH]; intros idx a n L; [split; [intros []|reflexivity]|]. destruct idx as [|v idx]; [discriminate|]. injection L as L. destruct (IH idx a n L) as [I1 I2].
    unfold index. cbn [combine app mfind]. destruct (eqb n x) eqn:Q.
    - apply (proj1 (SMap.eqb_true _ _)) in Q. subst. split; [intros _; exists 0; now split|]. intros H. elim H. now left.
    - assert (Q' : n <> x) by (intros ->; rewrite SMap.eqb_refl in Q; discriminate). split.
      + intros [->|H]; [now elim Q'|]. destruct (I1 H) as [i [A B]]. exists (S i). now split.
      + intros H. apply I2. intros H'. apply H. now right.
  Qed.
  Section Sides.
    Variables (K1 K2 : slots) (pairs : list (nat * nat)).
    Hypothesis Hm : forall a b, In (a, b) pairs -> slot K1 a = slot K2 b.
    Hypothesis Hd : forall n, In n (keys (without (map fst pairs) K1)) -> In n (keys (without (map snd pairs) K2)) -> False.
    Notation K := (without (map fst pairs) K1 ++ without (map snd pairs) K2).
    Lemma pair_range : forall idx i p, Forall2 lt idx (map (fun p => size (slot K1 (fst p))) pairs) -> nth_error pairs i = Some p -> forall x, nth_error idx i = Some x -> x < size (slot K1 (fst p)).
    Proof. intros idx i p F Hp x Hx. apply (Forall2_nth_error _ _ _ _ _ F i _ _ Hx). now rewrite nth_error_map, Hp. Qed.
    Lemma slot_left : forall n, ~ In n (map fst pairs) -> slot K1 n <> None -> slot K n = slot K1 n.
    Proof.
      intros n H S. assert (Q : slot (without (map fst pairs) K1) n = slot K1 n) by (rewrite slot_without; destruct (member n (map fst pairs)) eqn:M; [apply member_In in M; contradiction|reflexivity]).
      rewrite slot_app. unfold slot in Q at 1. destruct (mfind n (without (map fst pairs) K1)); [exact Q|]. elim S. now rewrite <- Q.
    Qed.
    Lemma slot_right : forall n, ~ In n (map snd pairs) -> slot K2 n <> None -> slot K n = slot K2 n.
    Proof.
      intros n H S. assert (Q : slot (without (map snd pairs) K2) n = slot K2 n) by (rewrite slot_without; destruct (member n (map snd pairs)) eqn:M; [apply member_In in M; contradiction|reflexivity]).
      rewrite slot_app. destruct (mfind n (without (map fst pairs) K1)) eqn:F; [|exact Q]. exfalso. apply (Hd n); [exact (in_map fst _ _ (mfind_In _ _ _ F))|]. apply slot_keys. now rewrite Q.
    Qed.
    Lemma left_in : forall a idx, in_slots K a -> Forall2 lt idx (map (fun p => size (slot K1 (fst p))) pairs) -> in_slots K1 (combine (map fst pairs) idx ++ a).
    Proof.
      intros a idx Ha F n. destruct (slot K1 n) eqn:S; [left|now right]. rewrite <- S. assert (L : length (map fst pairs) = length idx) by (apply Forall2_len in F; rewrite !map_length in *; congruence).
      destruct (joined_index (map fst pairs) idx a n L) as [I1 I2]. destruct (in_dec Nat.eq_dec n (map fst pairs)) as [I|I].
      - destruct (I1 I) as [i [X Y]]. rewrite nth_error_map in X. destruct (nth_error pairs i) as [p|] eqn:P; [|discriminate]. injection X as <-. exact (pair_range idx i p F P _ Y).
      - rewrite I2 by exact I. destruct (Ha n) as [H|H]; rewrite slot_left in H by (exact I || congruence); [exact H|congruence].
    Qed.
    Lemma right_in : forall a idx, in_slots K a -> Forall2 lt idx (map (fun p => size (slot K1 (fst p))) pairs) -> in_slots K2 (combine (map snd pairs) idx ++ a).
    Proof.
      intros a idx Ha F n. destruct (slot K2 n) eqn:S; [left|now right]. rewrite <- S. assert (L : length (map snd pairs) = length idx) by (apply Forall2_len in F; rewrite !map_length in *; congruence).
      destruct (joined_index (map snd pairs) idx a n L) as [I1 I2]. destruct (in_dec Nat.eq_dec n (map snd pairs)) as [I|I].
      - destruct (I1 I) as [i [X Y]]. rewrite nth_error_map in X. destruct (nth_error pairs i) as [[x y]|] eqn:P; [|discriminate]. injection X as <-. cbn [snd].
        rewrite <- (Hm x y (nth_error_In _ _ P)). exact (pair_range idx i (x, y) F P _ Y).
      - rewrite I2 by exact I. destruct (Ha n) as [H|H]; rewrite slot_right in H by (exact I || congruence); [exact H|congruence].
    Qed.
  End Sides.

  Lemma same_of_has : forall (r r' : tensor unit R) K, has r K -> has r' K -> (forall a, in_slots K a -> value r a = value r' a) -> same_elements r r'.
  Proof.
    intros r r' K H H' V. split; [intros n; now rewrite (h_dim _ _ H), (h_dim _ _ H')|]. intros a Ha. apply V. intros n. destruct (slot K n) eqn:S; [left|now right]. cbn [size]. apply Ha. now rewrite (h_dim _ _ H).
  Qed.
  Lemma has_same : forall t t' : tensor unit R, plain_tensor t -> plain_tensor t' -> same_dimensions t t' -> has t' (slots_of t).
  Proof. intros t t' [W B] [W' B'] D. constructor; [exact W'|exact B'|]. intros n. rewrite slot_of by exact W. symmetry. apply D. Qed.

  Section Operands.
    Variables (A B : tensor unit R) (pairs : list (nat * nat)).
    Hypotheses (PA : plain_tensor A) (PB : plain_tensor B) (HP : joinable A B pairs).
    Lemma join_slots : (forall a b, In (a, b) pairs -> slot (slots_of A) a = slot (slots_of B) b) /\
      forall n, In n (keys (without (map fst pairs) (slots_of A))) -> In n (keys (without (map snd pairs) (slots_of B))) -> False.
    Proof.
      destruct PA as [WA BA], PB as [WB BB], HP as [_ [_ [D X]]]. split.
      - intros a b Hab. rewrite !slot_of by assumption. now apply D.
      - intros n. rewrite !keys_of, !free_spec. intros [I1 N1] [I2 N2]. apply (X n); auto; [now apply (dimension_named A n WA)|now apply (dimension_named B n WB)].
    Qed.
    Notation K := (without (map fst pairs) (slots_of A) ++ without (map snd pairs) (slots_of B)).
    Lemma contracted : forall t1 t2, has t1 (slots_of A) -> has t2 (slots_of B) -> exists r, contract E J t1 t2 pairs = Ok r /\ has r K /\
      forall a, in_slots K a -> value r a = Sums (map (fun p => size (slot (slots_of A) (fst p))) pairs) (product t1 t2 pairs a).
    Proof. intros t1 t2 H1 H2. destruct HP as [N1 [N2 _]]. destruct join_slots as [D X]. exact (contract_has EA E J HJ t1 t2 _ _ pairs H1 H2 N1 N2 D X). Qed.

    Theorem contract_sum_first : forall A', plain_tensor A' -> same_dimensions A A' ->
      exists s p p' r r', scalar_op E radd A A' = Ok s /\ contract E J A B pairs = Ok p /\ contract E J A' B pairs = Ok p' /\
        contract E J s B pairs = Ok r /\ scalar_op E radd p p' = Ok r' /\ same_elements r r'.
    Proof.
      intros A' PA' D. destruct PA as [WA BA], PB as [WB BB]. pose proof (has_of A WA BA) as HA. pose proof (has_of B WB BB) as HB. pose proof (has_same A A' PA PA' D) as HA'.
      destruct (binary_has E radd A A' _ HA HA') as [s [E1 [Hs Vs]]]. destruct (contracted A B HA HB) as [p [E2 [Hp Vp]]]. destruct (contracted A' B HA' HB) as [p' [E3 [Hp' Vp']]]. destruct (contracted s B Hs HB) as [r [E4 [Hr Vr]]].
      destruct (binary_has E radd p p' _ Hp Hp') as [r' [E5 [Hr' Vr']]]. exists s, p, p', r, r'. repeat (split; [assumption|]). apply (same_of_has r r' _ Hr Hr').
      intros a Ha. rewrite Vr, Vr', Vp, Vp', <- Sums_add by exact Ha. apply Sums_ext. intros idx Hi. unfold product. rewrite Vs by (apply left_in with (K2 := slots_of B); assumption). apply (mul_distr_r EA MD).
    Qed.
    Theorem contract_sum_second : forall B', plain_tensor B' -> same_dimensions B B' ->
      exists s p p' r r', scalar_op E radd B B' = Ok s /\ contract E J A B pairs = Ok p /\ contract E J A B' pairs = Ok p' /\
        contract E J A s pairs = Ok r /\ scalar_op E radd p p' = Ok r' /\ same_elements r r'.
    Proof.
      intros B' PB' D. destruct PA as [WA BA], PB as [WB BB]. pose proof (has_of A WA BA) as HA. pose proof (has_of B WB BB) as HB. pose proof (has_same B B' PB PB' D) as HB'.
      destruct (binary_has E radd B B' _ HB HB') as [s [E1 [Hs Vs]]]. destruct (contracted A B HA HB) as [p [E2 [Hp Vp]]]. destruct (contracted A B' HA HB') as [p' [E3 [Hp' Vp']]]. destruct (contracted A s HA Hs) as [r [E4 [Hr Vr]]].
      destruct (binary_has E radd p p' _ Hp Hp') as [r' [E5 [Hr' Vr']]]. exists s, p, p', r, r'. repeat (split; [assumption|]). apply (same_of_has r r' _ Hr Hr').
      intros a Ha. rewrite Vr, Vr', Vp, Vp', <- Sums_add by exact Ha. apply Sums_ext. intros idx Hi. unfold product. destruct join_slots as [D1 D2]. rewrite Vs by (apply right_in with (K1 := slots_of A); assumption). apply MD.
    Qed.
    Theorem contract_number : forall c, exists s s' p r r' q, scalar_number E (rmul c) A = Ok s /\ scalar_number E (rmul c) B = Ok s' /\ contract E J A B pairs = Ok p /\
        contract E J s B pairs = Ok r /\ contract E J A s' pairs = Ok r' /\ scalar_number E (rmul c) p = Ok q /\ same_elements r q /\ same_elements r' q.
    Proof.
      intros c. destruct PA as [WA BA], PB as [WB BB]. pose proof (has_of A WA BA) as HA. pose proof (has_of B WB BB) as HB.
      destruct (number_has E (rmul c) A _ HA) as [s [E1 [Hs Vs]]]. destruct (number_has E (rmul c) B _ HB) as [s' [E1' [Hs' Vs']]]. destruct (contracted A B HA HB) as [p [E2 [Hp Vp]]].
      destruct (contracted s B Hs HB) as [r [E3 [Hr Vr]]]. destruct (contracted A s' HA Hs') as [r' [E4 [Hr' Vr']]]. destruct (number_has E (rmul c) p _ Hp) as [q [E5 [Hq Vq]]].
      exists s, s', p, r, r', q. repeat (split; [assumption|]). destruct join_slots as [D1 D2]. split; [apply (same_of_has r q _ Hr Hq)|apply (same_of_has r' q _ Hr' Hq)]; intros a Ha.
      - rewrite Vr, Vq, Vp, (Sums_mul_l EA MD) by exact Ha. apply Sums_ext. intros idx Hi. unfold product. rewrite Vs by (apply left_in with (K2 := slots_of B); assumption). apply MA.
      - rewrite Vr', Vq, Vp, (Sums_mul_l EA MD) by exact Ha. apply Sums_ext. intros idx Hi. unfold product. rewrite Vs' by (apply right_in with (K1 := slots_of A); assumption). apply (mul_swap EA MA).
    Qed.
    (** conjugation *)
    Section Conjugate.
      Variable real : bool.
      Hypothesis HC : conjugation_laws (R := R) real.
      Lemma conjugated_mul : forall x y : R, conjugated real (rmul x y) = rmul (conjugated real x) (conjugated real y).
      Proof. intros x y. unfold conjugated. destruct HC as [->|[_ [_ H]]]; [reflexivity|]. destruct real; [reflexivity|apply H]. Qed.
      Lemma conjugated_rsum : forall l : list R, conjugated real (rsum l) = rsum (map (conjugated real) l).
      Proof.
        unfold conjugated. destruct real; [intros l; now rewrite map_id|]. destruct HC as [H|[H0 [H1 _]]]; [discriminate|].
        induction l as [|x l IH]; [exact H0|]. cbn [map rsum fold_right] in *. fold (rsum l) in *. rewrite H1, IH. reflexivity.
      Qed.
      Lemma conjugated_Sums : forall ds f, conjugated real (Sums ds f) = Sums ds (fun l => conjugated real (f l)).
      Proof.
        induction ds as [|d ds IH]; intros f; cbn [Sums]; [reflexivity|]. unfold Sum. rewrite conjugated_rsum, map_map. f_equal. apply map_ext. intros i. apply IH.
      Qed.
      Theorem contract_conjugate : exists A' B' p r q, conjugate E real A = Ok A' /\ conjugate E real B = Ok B' /\ contract E J A B pairs = Ok p /\
        contract E J A' B' pairs = Ok r /\ conjugate E real p = Ok q /\ same_elements r q.
      Proof.
        destruct PA as [WA BA], PB as [WB BB]. pose proof (has_of A WA BA) as HA. pose proof (has_of B WB BB) as HB.
        destruct (conjugate_has E real A _ HA) as [A' [E1 [HA' VA]]]. destruct (conjugate_has E real B _ HB) as [B' [E2 [HB' VB]]]. destruct (contracted A B HA HB) as [p [E3 [Hp Vp]]].
        destruct (contracted A' B' HA' HB') as [r [E4 [Hr Vr]]]. destruct (conjugate_has E real p _ Hp) as [q [E5 [Hq Vq]]].
        exists A', B', p, r, q. repeat (split; [assumption|]). apply (same_of_has r q _ Hr Hq). intros a Ha. rewrite Vr, Vq by exact Ha. change (if real then value p a else rconj (value p a)) with (conjugated real (value p a)).
        rewrite Vp, conjugated_Sums by exact Ha. apply Sums_ext. intros idx Hi. unfold product. destruct join_slots as [D1 D2]. rewrite conjugated_mul.
        rewrite VA by (apply left_in with (K2 := slots_of B); assumption). rewrite VB by (apply right_in with (K1 := slots_of A); assumption). reflexivity.
      Qed.
    End Conjugate.
  End Operands.
End Linear.
