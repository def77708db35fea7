(** The operators of spin 1/2 have the elements they should have. *)
From Coq Require Import List Bool Arith ZArith Lia Ring Setoid Morphisms.
From Verif Require Import Base.Outcome Base.SMap Model.Symmetry Model.Edge Model.Core Model.EdgeOperator Model.Elementwise Model.Contract Model.SimpleTensor Model.NetworkNew Model.SpinOperators
  Spec.Blocks Spec.Relabel Spec.Contract Spec.Plain Spec.Grid Spec.Svd Spec.SquareLattice Spec.ExactState Spec.ExactOperator Spec.LocalUpdate Spec.SpinModel
  Proof.SymmetryFacts Proof.LoopFacts Proof.SumFacts Proof.CoreFacts Proof.ElemFacts Proof.PlainFacts Proof.PlainTools Proof.PlainElem Proof.LineMath Proof.GridSum Proof.ExactApply Proof.ExObserve.
Import ListNotations.

Section Single.
  Context {R : Type} {RR : Scalar R}.
  Lemma single_two : forall junk i o i' o' (v v' : R), i < 2 -> o < 2 -> i' < 2 -> o' < 2 -> (i, o) <> (i', o') ->
    exists t, single_operator junk [(i, o, v); (i', o', v')] = Ok t /\ fits_operator 1 2 t /\
      forall a, index a (in_name 0) < 2 -> index a (out_name 0) < 2 -> value t a = if (index a (in_name 0) =? i) && (index a (out_name 0) =? o) then v else if (index a (in_name 0) =? i') && (index a (out_name 0) =? o') then v' else rzero.
  Proof.
    intros junk i o i' o' v v' Hi Ho Hi' Ho' Hn.
    exists (operator83 1 (fun p => if p =? 2 * i + o then v else if p =? 2 * i' + o' then v' else rzero)).
    split; [|split; [apply operator83_ok; lia|]].
    - destruct i as [|[|i]], o as [|[|o]], i' as [|[|i']], o' as [|[|o']]; try lia; try (now destruct Hn); vm_compute; reflexivity.
    - intros a Ha Hb. unfold value. change (t_names _) with [in_name 0; out_name 0]. cbn [map].
      destruct (index a (in_name 0)) as [|[|x]]; try lia; destruct (index a (out_name 0)) as [|[|y]]; try lia;
      destruct i as [|[|i]], o as [|[|o]], i' as [|[|i']], o' as [|[|o']]; try lia; try (now destruct Hn); vm_compute; reflexivity.
  Qed.
  Hypothesis EA : exact_arithmetic R.
  Variables (E : @env R) (J : internal).
  Hypothesis HJ : NoDup [i_contract_0 J; i_contract_1 J; i_contract_2 J].
  Definition two_slots : slots := [(in_name 1, Some 2); (out_name 1, Some 2); (in_name 0, Some 2); (out_name 0, Some 2)].
  Lemma pair_has : forall t, fits_operator 1 2 t -> exists r, pair_operator E J (Ok t) = Ok r /\ has r two_slots /\
    forall a b c d, a < 2 -> b < 2 -> c < 2 -> d < 2 -> operator_element 2 r [a; b] [c; d] = rmul (operator_element 1 t [b] [d]) (operator_element 1 t [a] [c]).
  Proof.
    intros t Ht. assert (HT := op_has 2 [(0, 0)] t Ht). set (K := op_slots 2 [(0, 0)]) in *.
    set (dict := [(in_name 0, in_name 1); (out_name 0, out_name 1)]).
    assert (HR := rename_keys_has t K dict HT eq_refl).
    destruct (contract_keys EA E J HJ (edge_rename t dict) t _ K [] HR HT eq_refl eq_refl (Forall_nil _) eq_refl) as [r [R1 [R2 R3]]].
    exists r. split; [exact R1|]. split; [exact R2|]. intros a b c d Ha Hb Hc Hd. unfold operator_element at 1. cbn [seq map combine app].
    assert (S0 : forall n, slot (without (map fst ([] : list (nat * nat))) (map (fun p => (rename_one dict (fst p), snd p)) K) ++ without (map snd ([] : list (nat * nat))) K) n = slot two_slots n) by reflexivity.
    rewrite R3.
    - cbn [map Sums]. unfold product. cbn [combine map app]. f_equal.
      + unfold operator_element. cbn [seq map combine app]. apply (rename_keys_value t K dict _ _ HT eq_refl). repeat constructor; right; reflexivity.
      + unfold operator_element. cbn [seq map combine app]. apply (value_keys t K _ _ HT). repeat constructor; right; reflexivity.
    - intro n. rewrite S0. unfold two_slots, slot, index. cbn [mfind]. repeat match goal with |- context [eqb n ?m] => destruct (eqb n m) eqn:?Q end; cbn [size]; auto.
      all: match goal with H : eqb _ _ = true |- _ => apply eqb_eq in H; subst n end; try discriminate; left; cbn; assumption.
  Qed.
End Single.

Section Spin.
  Context {R C : Type} {RR : Scalar R} {RC : Scalar C}.
  Hypotheses (EA : exact_arithmetic R) (MA : associative_product R) (MD : distributive_product R) (EAC : exact_arithmetic C).
  Variables (half mhalf : R) (imaginary : R -> C) (part : C -> R).
  Hypothesis HN : spin_numbers half mhalf imaginary part.
  Variables (E : @env R) (EC : @env C) (J : internal) (junk : R) (junkC : C).
  Hypothesis HJ : NoDup [i_contract_0 J; i_contract_1 J; i_contract_2 J].
  Notation "x +r y" := (radd x y) (at level 50, left associativity).
  Notation "x *r y" := (rmul x y) (at level 40, left associativity).
  Add Ring scalars90 : (semi_ring EA MA MD).
  Notation quarter := (half *r half).
  Notation mquarter := (half *r mhalf).
  Lemma quarters : quarter +r quarter = half.
  Proof. transitivity (half *r (half +r half)); [ring|]. rewrite (sn_half _ _ _ _ HN). ring. Qed.
  Lemma quarter_minus : quarter +r mquarter = rzero.
  Proof. transitivity (half *r (half +r mhalf)); [ring|]. rewrite (sn_minus _ _ _ _ HN). ring. Qed.
  Lemma negative_unique : forall x y : R, x +r y = rzero -> forall z : R, z +r y = rzero -> x = z.
  Proof. intros x y H z H'. transitivity (x +r (z +r y)); [rewrite H'; ring|]. transitivity ((x +r y) +r z); [ring|]. rewrite H. ring. Qed.
  Lemma minus_squared : mhalf *r mhalf = quarter.
  Proof.
    apply (negative_unique _ mquarter); [|exact quarter_minus]. transitivity (mhalf *r (half +r mhalf)); [ring|]. rewrite (sn_minus _ _ _ _ HN). ring.
  Qed.
  Lemma half_minus : half +r mquarter = quarter.
  Proof. rewrite <- quarters at 1. transitivity (quarter +r (quarter +r mquarter)); [ring|]. rewrite quarter_minus. ring. Qed.

  Lemma spin_x_ok : exists t, spin_x half junk = Ok t /\ fits_operator 1 2 t /\ forall a c, a < 2 -> c < 2 -> operator_element 1 t [a] [c] = if a =? c then rzero else half.
  Proof.
    destruct (single_two junk 0 1 1 0 half half) as [t [T1 [T2 T3]]]; [lia..|discriminate|]. exists t. split; [exact T1|]. split; [exact T2|]. intros a c Ha Hc. unfold operator_element. rewrite T3 by assumption.
    destruct a as [|[|a]], c as [|[|c]]; try lia; reflexivity.
  Qed.
  Lemma spin_z_ok : exists t, spin_z half mhalf junk = Ok t /\ fits_operator 1 2 t /\ forall a c, a < 2 -> c < 2 -> operator_element 1 t [a] [c] = if a =? c then (if a =? 0 then half else mhalf) else rzero.
  Proof.
    destruct (single_two junk 0 0 1 1 half mhalf) as [t [T1 [T2 T3]]]; [lia..|discriminate|]. exists t. split; [exact T1|]. split; [exact T2|]. intros a c Ha Hc. unfold operator_element. rewrite T3 by assumption.
    destruct a as [|[|a]], c as [|[|c]]; try lia; reflexivity.
  Qed.
  Lemma spin_y_ok : exists t, spin_y half mhalf imaginary junkC = Ok t /\ fits_operator 1 2 t /\ forall a c, a < 2 -> c < 2 -> operator_element 1 t [a] [c] = if a =? c then rzero else imaginary (if a =? 0 then mhalf else half).
  Proof.
    destruct (single_two junkC 0 1 1 0 (imaginary mhalf) (imaginary half)) as [t [T1 [T2 T3]]]; [lia..|discriminate|]. exists t. split; [exact T1|]. split; [exact T2|]. intros a c Ha Hc. unfold operator_element. rewrite T3 by assumption.
    destruct a as [|[|a]], c as [|[|c]]; try lia; reflexivity.
  Qed.
  Lemma convert_has : forall t K, has t K -> has (convert_tensor part t) K.
  Proof.
    intros t K [W B D]. constructor.
    - constructor; [constructor|apply W|apply W]; cbn [convert_tensor t_core c_edges c_blocks].
      + exact (wf_maps _ (wf_tcore _ W)).
      + change (t_edges t) with (c_edges (t_core t)). rewrite <- (wf_shape _ (wf_tcore _ W)). change (c_blocks (t_core t)) with (t_blocks t). unfold shape. rewrite map_map. apply map_ext. intros [k b]. cbn [fst snd]. now rewrite map_length.
      + intros i e s He Hs. destruct (wf_pruned _ (wf_tcore _ W) i e s He Hs) as [key [H1 H2]]. exists key. split; [|exact H2]. now rewrite map_map.
    - cbn. intro Q. apply B. destruct (t_blocks t); [reflexivity|discriminate].
    - exact D.
  Qed.
  Lemma convert_value : forall t a, value (convert_tensor part t) a = part (value t a).
  Proof.
    intros t a. unfold value, element. cbn [convert_tensor t_names].
    set (pos := map (fun n => (n, (tt, index a n))) (t_names t)). unfold const_at, find_block. cbn [convert_tensor t_names t_core c_blocks is_nosym].
    assert (Q : get_block_and_offset pos (t_names t) (mkCore (t_edges t) (map (fun b => (fst b, map part (snd b))) (t_blocks t)) : core unit R) = get_block_and_offset pos (t_names t) (t_core t)) by reflexivity.
    rewrite Q. destruct (get_block_and_offset pos (t_names t) (t_core t)) as [[k o]| | |]; cbn [bind fst snd]; try now rewrite (sn_zero _ _ _ _ HN). change (is_nosym : bool) with true. cbn iota.
    change (c_blocks (t_core t)) with (t_blocks t). destruct (t_blocks t) as [|[k0 b] bs]; cbn [map hd_error option_map get_or_ub bind fst snd]; [now rewrite (sn_zero _ _ _ _ HN)|].
    rewrite nth_error_map. destruct (nth_error b o); cbn [option_map get_or_ub]; [reflexivity|]. now rewrite (sn_zero _ _ _ _ HN).
  Qed.
  Lemma two_in : forall a b c d, a < 2 -> b < 2 -> c < 2 -> d < 2 -> in_slots two_slots (combine (map in_name (seq 0 2)) [a; b] ++ combine (map out_name (seq 0 2)) [c; d]).
  Proof.
    intros a b c d Ha Hb Hc Hd n. unfold two_slots, slot, index. cbn [seq map combine app mfind]. repeat match goal with |- context [eqb n ?m] => destruct (eqb n m) eqn:?Q end; cbn [size]; auto.
    all: match goal with H : eqb _ _ = true |- _ => apply eqb_eq in H; subst n end; try discriminate; left; cbn; assumption.
  Qed.
  Lemma two_fits : forall (t : tensor unit R), has t two_slots -> fits_operator 2 2 t.
  Proof.
    intros t H. constructor; [apply H|apply H| | |].
    - intros [|[|i]] Hi; try lia; apply (h_dim _ _ H).
    - intros [|[|i]] Hi; try lia; apply (h_dim _ _ H).
    - intros n Hn. apply (has_in t two_slots n H) in Hn. apply slot_keys in Hn. cbn in Hn. destruct Hn as [<-|[<-|[<-|[<-|[]]]]]; [exists 1|exists 1|exists 0|exists 0]; auto.
  Qed.
  Theorem spin_ss_ok : exists t, spin_ss half mhalf imaginary part E EC J junk junkC = Ok t /\ fits_operator 2 2 t /\
    forall a b c d, a < 2 -> b < 2 -> c < 2 -> d < 2 ->
      operator_element 2 t [a; b] [c; d] = (if (c =? b) && (d =? a) then half else rzero) +r (if (c =? a) && (d =? b) then mquarter else rzero).
  Proof.
    destruct spin_x_ok as [x [X1 [X2 X3]]]. destruct spin_y_ok as [y [Y1 [Y2 Y3]]]. destruct spin_z_ok as [z [Z1 [Z2 Z3]]].
    destruct (pair_has EA E J HJ x X2) as [xx [XX1 [XX2 XX3]]]. destruct (pair_has EAC EC J HJ y Y2) as [yy [YY1 [YY2 YY3]]]. destruct (pair_has EA E J HJ z Z2) as [zz [ZZ1 [ZZ2 ZZ3]]].
    destruct (binary_has E radd xx (convert_tensor part yy) two_slots XX2 (convert_has yy _ YY2)) as [p [P1 [P2 P3]]].
    destruct (binary_has E radd p zz two_slots P2 ZZ2) as [r [R1 [R2 R3]]].
    exists r. split; [|split; [now apply two_fits|]].
    - unfold spin_ss, spin_xx, spin_yy, spin_zz. rewrite X1, Y1, Z1, XX1. cbn [bind]. rewrite YY1. cbn [bind]. rewrite ZZ1. cbn [bind]. rewrite P1. cbn [bind]. exact R1.
    - intros a b c d Ha Hb Hc Hd. assert (I := two_in a b c d Ha Hb Hc Hd). unfold operator_element. rewrite (R3 _ I), (P3 _ I), convert_value.
      change (value xx _) with (operator_element 2 xx [a; b] [c; d]). change (value yy _) with (operator_element 2 yy [a; b] [c; d]). change (value zz _) with (operator_element 2 zz [a; b] [c; d]).
      rewrite XX3, YY3, ZZ3, !X3, !Y3, !Z3 by assumption. assert (Q1 := quarters). assert (Q2 := quarter_minus). assert (Q3 := minus_squared). assert (Q4 := half_minus).
      assert (S1 : part (rmul (imaginary half) (imaginary half)) = mquarter) by (apply (negative_unique _ quarter); [apply (sn_square _ _ _ _ HN)|rewrite <- Q2; ring]).
      assert (S2 : part (rmul (imaginary mhalf) (imaginary mhalf)) = mquarter) by (apply (negative_unique _ quarter); [rewrite <- Q3; apply (sn_square _ _ _ _ HN)|rewrite <- Q2; ring]).
      assert (S3 : part (rmul (imaginary half) (imaginary mhalf)) = quarter) by (apply (negative_unique _ mquarter); [apply (sn_square _ _ _ _ HN)|exact Q2]).
      assert (S4 : part (rmul (imaginary mhalf) (imaginary half)) = quarter) by (rewrite (ea_mul_comm C EAC); exact S3).
      assert (S5 : forall u, part (rmul rzero u) = rzero) by (intro u; rewrite (ea_mul_0 C EAC); apply (sn_zero _ _ _ _ HN)).
      assert (S6 : forall u, part (rmul u rzero) = rzero) by (intro u; rewrite (ea_mul_comm C EAC); apply S5).
      destruct a as [|[|a]], b as [|[|b]], c as [|[|c]], d as [|[|d]]; try lia; cbn [Nat.eqb andb]; rewrite ?S1, ?S2, ?S3, ?S4, ?S5, ?S6, ?Q3; try ring;
        rewrite ?Q1, ?Q2, ?Q4; try ring.
  Qed.
End Spin.
