(** Operators applied to the vector of an exact lattice. *)
From Coq Require Import String Ascii List Bool Arith ZArith Lia Permutation.
From Verif Require Import Base.Outcome Base.SMap Model.Symmetry Model.Edge Model.Core Model.EdgeOperator Model.Elementwise Model.Contract Model.Misc Model.ShrinkExpand Model.Qr Model.Svd Model.Auxiliaries Model.Spins Model.SimpleTensor Model.Exact
  Spec.Blocks Spec.Relabel Spec.Contract Spec.Plain Spec.Lapack Spec.Grid Spec.SquareLattice Spec.SpinLattice Spec.Factor Spec.Truncate Spec.Spectrum Spec.Svd Spec.ExactState Spec.ExactOperator Proof.LoopFacts Proof.SumFacts Proof.CoreFacts Proof.ElemFacts Proof.LegFacts Proof.TransposeNames Proof.RenameFacts Proof.RegroupFacts Proof.ContractNames Proof.ContractPlain Proof.PlainFacts Proof.PlainTools Proof.PlainElem Proof.SumBonds Proof.GridSum Proof.LatticeAmplitude Proof.SpinFacts Proof.SpinAmplitude Proof.ExactVector Proof.ExactValue Proof.ExactMain Proof.WeightedMain.
Import ListNotations.

Lemma pair_spec : forall p q, reflect (p = q) (pair_eqb p q).
Proof.
  intros [a b] [c d]. unfold pair_eqb. cbn [fst snd]. destruct (Nat.eqb_spec a c), (Nat.eqb_spec b d); cbn; constructor; congruence.
Qed.
Lemma find_combine : forall (A : Type) (vs : list nat) (idx : list A) k n x, NoDup vs -> nth_error vs k = Some n -> nth_error idx k = Some x -> mfind n (combine vs idx) = Some x.
Proof.
  intros A. induction vs as [|m vs IH]; intros idx k n x ND H1 H2; [destruct k; discriminate|]. inversion ND as [|? ? N1 N2]; subst. destruct idx as [|y idx]; [destruct k; discriminate|].
  destruct k as [|k]; cbn in H1, H2; cbn [combine mfind].
  - injection H1 as <-. injection H2 as <-. now rewrite eqb_refl.
  - rewrite neqb; [now apply (IH idx k)|]. intros ->. apply N1. now apply nth_error_In in H1.
Qed.
Lemma find_combine_map : forall (vs : list nat) (q : nat -> nat) n, In n vs -> mfind n (combine vs (map q vs)) = Some (q n).
Proof. induction vs as [|m vs IH]; intros q n H; [destruct H|]. cbn [map combine mfind]. destruct (Nat.eq_dec n m) as [->|D]; [now rewrite eqb_refl|]. rewrite neqb by exact D. apply IH. destruct H; [congruence|assumption]. Qed.
Lemma find_combine_none : forall (A : Type) (vs : list nat) (idx : list A) n, ~ In n vs -> mfind n (combine vs idx) = None.
Proof. intros A. induction vs as [|m vs IH]; intros idx n H; [reflexivity|]. destruct idx as [|y idx]; [reflexivity|]. cbn [combine mfind]. rewrite neqb; [apply IH|]; intro Q; apply H; [now right|now left]. Qed.
Lemma index_app : forall l l' n, index (l ++ l') n = match mfind n l with Some i => i | None => index l' n end.
Proof. intros l l' n. unfold index. induction l as [|[m x] l IH]; [reflexivity|]. cbn [app mfind]. destruct (eqb n m); [reflexivity|exact IH]. Qed.

Section All.
  Context {R : Type} {RR : Scalar R}.
  Notation tens := (tensor unit R).
  Implicit Types t : tens.
  Hypotheses (EA : exact_arithmetic R).
  Variables (E : @env R) (J : internal).
  Hypothesis HJ : NoDup [i_contract_0 J; i_contract_1 J; i_contract_2 J].

  (** sums over the same names in another order *)
  Lemma sums_perm : forall (sz : nat -> nat) vs vs' (G : list (nat * nat) -> R), NoDup vs -> Permutation vs vs' ->
    (forall l l', (forall n, mfind n l = mfind n l') -> G l = G l') ->
    Sums (map sz vs) (fun idx => G (combine vs idx)) = Sums (map sz vs') (fun idx => G (combine vs' idx)).
  Proof.
    intros sz vs vs' G ND P HG. assert (ND' := Permutation_NoDup P ND).
    rewrite (Over_map_seq Nat.eqb Nat.eqb_spec sz vs (fun idx => G (combine vs idx)) (fun _ => 0) ND).
    rewrite (Over_map_seq Nat.eqb Nat.eqb_spec sz vs' (fun idx => G (combine vs' idx)) (fun _ => 0) ND').
    rewrite (Over_perm EA Nat.eqb Nat.eqb_spec sz vs vs' _ (fun _ => 0) ND P).
    - apply (Over_ext Nat.eqb Nat.eqb_spec). intros q _. apply HG. intro n. destruct (in_dec Nat.eq_dec n vs) as [Hn|Hn].
      + rewrite !find_combine_map; auto. now apply (Permutation_in _ P).
      + rewrite !find_combine_none; auto. intro Q. apply Hn. now apply (Permutation_in _ (Permutation_sym P)).
    - intros p q H. f_equal. f_equal. now apply map_ext.
  Qed.
  Theorem all_edges_has : forall t1 t2 K1 K2 vs, has t1 K1 -> has t2 K2 -> NoDup vs ->
    (forall n, In n (keys K1) -> In n (keys K2) -> In n vs) -> (forall n, In n vs -> slot K1 n = slot K2 n /\ slot K1 n <> None) ->
    exists r, contract_all_edge E J t1 t2 = Ok r /\ has r (without vs K1 ++ without vs K2) /\
      forall a, in_slots (without vs K1 ++ without vs K2) a ->
        value r a = Sums (map (fun n => size (slot K1 n)) vs) (fun idx => rmul (value t1 (combine vs idx ++ a)) (value t2 (combine vs idx ++ a))).
  Proof.
    intros t1 t2 K1 K2 vs H1 H2 ND Hk Hs. unfold contract_all_edge. rewrite contract_missing.
    set (us := filter (fun n => member n (t_names t2)) (t_names t1)).
    assert (HP : filter (fun p => member (fst p) (t_names t1) && member (snd p) (t_names t2)) (map (fun n => (n, n)) (t_names t1)) = map (fun n => (n, n)) us).
    { unfold us. assert (G : forall l, incl l (t_names t1) -> filter (fun p => member (fst p) (t_names t1) && member (snd p) (t_names t2)) (map (fun n => (n, n)) l) = map (fun n => (n, n)) (filter (fun n => member n (t_names t2)) l)).
      { induction l as [|n l IH]; intro Hi; [reflexivity|]. cbn [map filter fst snd]. rewrite (member_true n (t_names t1)) by (apply Hi; now left). cbn [andb].
        rewrite IH by (intros x Hx; apply Hi; now right). now destruct (member n (t_names t2)). }
      apply G, incl_refl. }
    rewrite HP. assert (NU : NoDup us) by apply NoDup_filter, (wf_nodup _ (h_wf _ _ H1)).
    assert (HU : forall n, In n us <-> In n vs).
    { intro n. unfold us. rewrite filter_In, member_iff. split.
      - intros [A B]. apply (has_in t1 K1 n H1) in A. apply (has_in t2 K2 n H2) in B. apply Hk; now apply slot_keys.
      - intro Hn. destruct (Hs n Hn) as [A B]. split; [apply (has_in t1 K1 n H1)|apply (has_in t2 K2 n H2)]; congruence. }
    assert (PU : Permutation us vs) by now apply NoDup_Permutation.
    assert (MU : forall n, member n us = member n vs).
    { intro n. destruct (member n vs) eqn:Q; [apply member_iff; apply member_iff in Q; now apply HU|]. apply member_false. intro X. apply HU, member_iff in X. congruence. }
    assert (FS : map fst (map (fun n : nat => (n, n)) us) = us) by (rewrite map_map; apply map_id).
    assert (SN : map snd (map (fun n : nat => (n, n)) us) = us) by (rewrite map_map; apply map_id).
    assert (WW : forall K, without us K = without vs K) by (intro K; unfold without; apply filter_ext; intro; now rewrite MU).
    destruct (contract_has EA E J HJ t1 t2 K1 K2 (map (fun n => (n, n)) us) H1 H2) as [r [R1 [R2 R3]]].
    - now rewrite FS.
    - now rewrite SN.
    - intros a b Hab. apply in_map_iff in Hab as [n [Q Hn]]. injection Q as <- <-. now apply Hs, HU.
    - rewrite FS, SN, !WW. intros n A B.
      assert (G : forall K, In n (keys (without vs K)) -> In n (keys K) /\ member n vs = false).
      { intros K X. unfold keys, without in X. apply in_map_iff in X as [[m o] [<- X]]. apply filter_In in X as [X Y]. cbn [fst] in *. split; [exact (in_map fst _ _ X)|now apply negb_true_iff in Y]. }
      destruct (G _ A) as [A1 A2]. destruct (G _ B) as [B1 _]. rewrite (member_true n vs) in A2 by (now apply Hk). discriminate.
    - exists r. split; [exact R1|]. rewrite FS, SN, !WW in R2, R3. split; [exact R2|]. intros a Ha. rewrite (R3 a Ha). rewrite map_map. cbn [fst].
      unfold product. rewrite FS, SN. apply (sums_perm (fun n => size (slot K1 n)) us vs (fun l => rmul (value t1 (l ++ a)) (value t2 (l ++ a))) NU PU).
      intros l l' Hl. assert (X : forall n, index (l ++ a) n = index (l' ++ a) n) by (intro n; rewrite !index_app; now rewrite Hl).
      f_equal; [apply (value_ext t1 K1)|apply (value_ext t2 K2)]; auto.
  Qed.
End All.

Section Apply.
  Context {R : Type} {RR : Scalar R}.
  Notation tens := (tensor unit R).
  Implicit Types t v w : tens.
  Hypotheses (EA : exact_arithmetic R).
  Variables (E : @env R) (J : internal).
  Hypothesis HJ : NoDup [i_contract_0 J; i_contract_1 J; i_contract_2 J].
  Variables (M N d : nat).

  Definition sname (p : nat * nat) : nat := site_name (fst p) (snd p).
  Lemma sname_inj : forall p q, sname p = sname q -> p = q.
  Proof. intros [a b] [c e] H. apply site_name_inj in H. cbn in H. destruct H. congruence. Qed.
  Definition state_slots : slots := map (fun p => (sname p, Some d)) (sites M N).
  Lemma find_state : forall p, In p (sites M N) -> mfind (sname p) state_slots = Some (Some d).
  Proof. intros p H. apply (find_tagged _ _ sname (fun _ => Some d)); [intros y _ Q; now apply sname_inj|exact H]. Qed.
  Lemma find_state_none : forall n, (forall p, In p (sites M N) -> sname p <> n) -> mfind n state_slots = None.
  Proof. intros n H. now apply (find_untagged _ _ sname (fun _ => Some d)). Qed.
  Lemma state_dec : forall n, (exists p, In p (sites M N) /\ n = sname p) \/ forall p, In p (sites M N) -> sname p <> n.
  Proof.
    intro n. destruct (in_dec Nat.eq_dec n (map sname (sites M N))) as [H|H].
    - left. apply in_map_iff in H as [p [<- H]]. eauto.
    - right. intros p Hp Q. apply H. rewrite <- Q. now apply in_map.
  Qed.
  Lemma state_keys : forall n, In n (keys state_slots) <-> exists p, In p (sites M N) /\ n = sname p.
  Proof. intro n. unfold keys, state_slots. rewrite map_map. cbn [fst]. rewrite in_map_iff. split; intros [p [A B]]; exists p; split; congruence. Qed.
  Lemma in_sites_iff : forall p, In p (sites M N) <-> fst p < M /\ snd p < N.
  Proof. intros [i j]. apply in_all_sites. Qed.
  Lemma exact_state_has : forall v, exact_state M N d v <-> has v state_slots.
  Proof.
    intro v. split.
    - intros [W B S O]. constructor; [exact W|exact B|]. intro n. unfold slot. destruct (state_dec n) as [[p [Hp ->]]|Hn].
      + rewrite find_state by exact Hp. apply in_sites_iff in Hp. now apply S.
      + rewrite find_state_none by exact Hn. destruct (dimension v n) eqn:D; [|reflexivity]. exfalso.
        destruct (O n) as [i [j [Hi [Hj ->]]]]; [apply (dimension_named v n W); congruence|]. apply (Hn (i, j)); [now apply in_sites_iff|reflexivity].
    - intros [W B D]. constructor; [exact W|exact B| |].
      + intros i j Hi Hj. rewrite D. unfold slot. change (site_name i j) with (sname (i, j)). rewrite find_state; [reflexivity|now apply in_sites_iff].
      + intros n Hn. apply (dimension_named v n W) in Hn. rewrite D in Hn. apply slot_keys, state_keys in Hn as [p [Hp ->]]. apply in_sites_iff in Hp. exists (fst p), (snd p). tauto.
  Qed.
  Definition pt (s : nat -> nat -> nat) : list (nat * nat) := map (fun ij => (site_name (fst ij) (snd ij), s (fst ij) (snd ij))) (sites M N).
  Lemma find_pt : forall s p, In p (sites M N) -> mfind (sname p) (pt s) = Some (s (fst p) (snd p)).
  Proof. intros s p H. apply (find_tagged _ _ sname (fun p => s (fst p) (snd p))); [intros y _ Q; now apply sname_inj|exact H]. Qed.
  Lemma find_pt_none : forall s n, (forall p, In p (sites M N) -> sname p <> n) -> mfind n (pt s) = None.
  Proof. intros s n H. now apply (find_untagged _ _ sname (fun p => s (fst p) (snd p))). Qed.
  Lemma pt_in : forall s, spins_within M N d s -> in_slots state_slots (pt s).
  Proof.
    intros s Hs n. unfold slot. destruct (state_dec n) as [[p [Hp ->]]|Hn]; [left|right; now rewrite find_state_none].
    rewrite find_state by exact Hp. unfold index. rewrite find_pt by exact Hp. apply in_sites_iff in Hp. now apply Hs.
  Qed.
  (** elements by configurations *)
  Lemma component_value : forall v a s, has v state_slots -> (forall p, In p (sites M N) -> index a (sname p) = s (fst p) (snd p)) -> value v a = component M N v s.
  Proof.
    intros v a s H Ha. unfold component. apply (value_ext v state_slots _ _ H). intros n Hn. apply slot_keys, state_keys in Hn as [p [Hp ->]]. rewrite (Ha p Hp). unfold index. fold (pt s). now rewrite find_pt.
  Qed.

  (** ** operators *)
  Variables (ps : list (nat * nat)) (A : tens).
  Notation k := (length ps).
  Hypotheses (Hps : on_lattice M N ps) (HA : fits_operator (length ps) d A).
  Definition op_slots : slots := map (fun i => (in_name i, Some d)) (seq 0 k) ++ map (fun i => (out_name i, Some d)) (seq 0 k).
  Lemma in_name_inj : forall i j, in_name i = in_name j -> i = j.
  Proof. unfold in_name. intros. lia. Qed.
  Lemma out_name_inj : forall i j, out_name i = out_name j -> i = j.
  Proof. unfold out_name. intros. lia. Qed.
  Lemma in_not_out : forall i j, in_name i <> out_name j.
  Proof. unfold in_name, out_name. intros. lia. Qed.
  Lemma out_not_site : forall i p, out_name i <> sname p.
  Proof. unfold out_name, sname, site_name. intros. lia. Qed.
  Lemma in_not_site : forall i p, in_name i <> sname p.
  Proof. unfold in_name, sname, site_name. intros. lia. Qed.
  Lemma op_has : has A op_slots.
  Proof.
    destruct HA as [W B I O Y]. constructor; [exact W|exact B|]. intro n. unfold op_slots. rewrite slot_app.
    destruct (in_dec Nat.eq_dec n (map in_name (seq 0 k))) as [Hn|Hn].
    - apply in_map_iff in Hn as [i [<- Hi]]. rewrite (find_tagged _ _ in_name (fun _ => Some d)); [|intros y _ Q; now apply in_name_inj|exact Hi]. apply in_seq in Hi. apply I. lia.
    - rewrite (find_untagged _ _ in_name (fun _ => Some d)) by (intros y Hy Q; apply Hn; rewrite <- Q; now apply in_map). unfold slot.
      destruct (in_dec Nat.eq_dec n (map out_name (seq 0 k))) as [Ho|Ho].
      + apply in_map_iff in Ho as [i [<- Hi]]. rewrite (find_tagged _ _ out_name (fun _ => Some d)); [|intros y _ Q; now apply out_name_inj|exact Hi]. apply in_seq in Hi. apply O. lia.
      + rewrite (find_untagged _ _ out_name (fun _ => Some d)) by (intros y Hy Q; apply Ho; rewrite <- Q; now apply in_map). destruct (dimension A n) eqn:D; [|reflexivity]. exfalso.
        destruct (Y n) as [i [Hi [->| ->]]]; [apply (dimension_named A n W); congruence| |]; [apply Hn|apply Ho]; apply in_map, in_seq; lia.
  Qed.
  Definition p_at (i : nat) : nat * nat := nth i ps (0, 0).
  Lemma p_in : forall i, i < k -> In (p_at i) ps /\ In (p_at i) (sites M N).
  Proof. intros i Hi. assert (H := nth_In ps (0, 0) Hi). split; [exact H|]. destruct Hps as [_ F]. rewrite Forall_forall in F. apply in_sites_iff. now apply F. Qed.
  Lemma p_inj : forall i j, i < k -> j < k -> p_at i = p_at j -> i = j.
  Proof. intros i j Hi Hj H. destruct Hps as [ND _]. now apply (NoDup_nth ps (0, 0)). Qed.
  Lemma ps_map : ps = map p_at (seq 0 k).
  Proof.
    apply (nth_ext _ _ (0, 0) (p_at 0)); [now rewrite map_length, seq_length|]. intros i Hi. rewrite map_nth, seq_nth by exact Hi. reflexivity.
  Qed.
  Lemma rename_in : forall n, rename_one (map_in ps) n = match mfind n (map (fun i => (in_name i, sname (p_at i))) (seq 0 k)) with Some x => x | None => n end.
  Proof. intro n. unfold rename_one, map_in. replace (map (fun i : nat => (in_name i, let (x, y) := nth i ps (0, 0) in site_name x y)) (seq 0 k)) with (map (fun i => (in_name i, sname (p_at i))) (seq 0 k)); [reflexivity|]. apply map_ext. intro i. unfold sname, p_at. now destruct (nth i ps (0, 0)). Qed.
  Lemma rename_out : forall n, rename_one (map_out ps) n = match mfind n (map (fun i => (out_name i, sname (p_at i))) (seq 0 k)) with Some x => x | None => n end.
  Proof. intro n. unfold rename_one, map_out. replace (map (fun i : nat => (out_name i, let (x, y) := nth i ps (0, 0) in site_name x y)) (seq 0 k)) with (map (fun i => (out_name i, sname (p_at i))) (seq 0 k)); [reflexivity|]. apply map_ext. intro i. unfold sname, p_at. now destruct (nth i ps (0, 0)). Qed.
  Lemma rename_in_at : forall i, i < k -> rename_one (map_in ps) (in_name i) = sname (p_at i).
  Proof. intros i Hi. rewrite rename_in, (find_tagged _ _ in_name (fun i => sname (p_at i))); [reflexivity|intros y _ Q; now apply in_name_inj|apply in_seq; lia]. Qed.
  Lemma rename_in_other : forall n, (forall i, n <> in_name i) -> rename_one (map_in ps) n = n.
  Proof. intros n H. rewrite rename_in, (find_untagged _ _ in_name (fun i => sname (p_at i))); [reflexivity|]. intros y _ Q. now apply (H y). Qed.
  Lemma rename_out_at : forall i, i < k -> rename_one (map_out ps) (out_name i) = sname (p_at i).
  Proof. intros i Hi. rewrite rename_out, (find_tagged _ _ out_name (fun i => sname (p_at i))); [reflexivity|intros y _ Q; now apply out_name_inj|apply in_seq; lia]. Qed.
  Lemma rename_out_other : forall n, (forall i, n <> out_name i) -> rename_one (map_out ps) n = n.
  Proof. intros n H. rewrite rename_out, (find_untagged _ _ out_name (fun i => sname (p_at i))); [reflexivity|]. intros y _ Q. now apply (H y). Qed.

  (** the operator with its edges I renamed *)
  Definition placed_slots : slots := map (fun i => (sname (p_at i), Some d)) (seq 0 k) ++ map (fun i => (out_name i, Some d)) (seq 0 k).
  Lemma renamed_keys : map (rename_one (map_in ps)) (keys op_slots) = map (fun i => sname (p_at i)) (seq 0 k) ++ map out_name (seq 0 k).
  Proof.
    unfold op_slots, keys. rewrite !map_app, !map_map. cbn [fst]. f_equal; apply map_ext_in; intros i Hi; apply in_seq in Hi; [apply rename_in_at; lia|]. apply rename_in_other. intros j Q. now apply (in_not_out j i).
  Qed.
  Lemma NoDup_tag : forall (f : nat -> nat) n, (forall i j, i < n -> j < n -> f i = f j -> i = j) -> NoDup (map f (seq 0 n)).
  Proof.
    intros f n H. assert (G : forall l, NoDup l -> (forall i, In i l -> i < n) -> NoDup (map f l)).
    { induction l as [|x l IH]; intros ND Hl; [constructor|]. inversion ND as [|? ? N1 N2]; subst. cbn [map]. constructor; [|apply IH; [exact N2|intros; apply Hl; now right]].
      intro Q. apply in_map_iff in Q as [y [Q Hy]]. apply N1. replace x with y; [exact Hy|]. apply H; [apply Hl; now right|apply Hl; now left|exact Q]. }
    apply G; [apply seq_NoDup|]. intros i Hi. apply in_seq in Hi. lia.
  Qed.
  Lemma renamed_nodup : NoDup (map (rename_one (map_in ps)) (keys op_slots)).
  Proof.
    rewrite renamed_keys. apply NoDup_app_intro.
    - apply NoDup_tag. intros i j Hi Hj Q. apply sname_inj in Q. now apply p_inj.
    - apply NoDup_tag. intros i j _ _. apply out_name_inj.
    - intros n H1 H2. apply in_map_iff in H1 as [i [<- _]]. apply in_map_iff in H2 as [j [Q _]]. now apply (out_not_site j (p_at i)).
  Qed.
  Lemma placed_has : has (edge_rename A (map_in ps)) placed_slots.
  Proof.
    eapply has_ext; [apply (rename_has A op_slots (map_in ps) op_has renamed_nodup)|]. intro n. f_equal. unfold op_slots, placed_slots. rewrite map_app, !map_map. cbn [fst snd].
    f_equal; apply map_ext_in; intros i Hi; apply in_seq in Hi; f_equal; [apply rename_in_at; lia|]. apply rename_in_other. intros j Q. now apply (in_not_out j i).
  Qed.

  (** ** the contraction *)
  Definition vs : list nat := map sname ps.
  Lemma vs_seq : vs = map (fun i => sname (p_at i)) (seq 0 k).
  Proof. unfold vs. rewrite ps_map at 1. now rewrite map_map. Qed.
  Lemma NoDup_vs : NoDup vs.
  Proof. rewrite vs_seq. apply NoDup_tag. intros i j Hi Hj Q. apply sname_inj in Q. now apply p_inj. Qed.
  Lemma in_vs : forall p, In (sname p) vs <-> In p ps.
  Proof. intro p. unfold vs. rewrite in_map_iff. split; [intros [q [Q H]]; apply sname_inj in Q; now subst|intro H; eauto]. Qed.
  Definition kept : list (nat * nat) := filter (fun p => negb (member (sname p) vs)) (sites M N).
  Definition outer_slots : slots := map (fun p => (sname p, Some d)) kept ++ map (fun i => (out_name i, Some d)) (seq 0 k).
  Lemma filter_map_tag : forall (B : Type) (f : B -> nat) (P : nat -> bool) (l : list B), filter (fun x => P (fst x)) (map (fun y => (f y, Some d)) l) = map (fun y => (f y, Some d)) (filter (fun y => P (f y)) l).
  Proof. intros B f P. induction l as [|y l IH]; [reflexivity|]. cbn [map filter fst]. rewrite IH. now destruct (P (f y)). Qed.
  Lemma outer_eq : without vs state_slots ++ without vs placed_slots = outer_slots.
  Proof.
    unfold outer_slots, kept, without, state_slots, placed_slots. rewrite filter_app, !(filter_map_tag _ _ (fun n => negb (member n vs))). f_equal.
    replace (filter (fun y => negb (member (sname (p_at y)) vs)) (seq 0 k)) with (@nil nat).
    - cbn [map app]. f_equal. rewrite (filter_ext_in _ (fun _ => true)); [generalize (seq 0 k); induction l; cbn; congruence|].
      intros i Hi. rewrite member_false; [reflexivity|]. intro Q. unfold vs in Q. apply in_map_iff in Q as [p [Q _]]. symmetry in Q. now apply out_not_site in Q.
    - symmetry. rewrite (filter_ext_in _ (fun _ => false)); [generalize (seq 0 k); induction l; cbn; congruence|]. intros i Hi. apply in_seq in Hi. rewrite member_true; [reflexivity|]. apply in_vs, p_in. lia.
  Qed.
  Lemma find_placed : forall i, i < k -> slot placed_slots (sname (p_at i)) = Some d.
  Proof.
    intros i Hi. unfold placed_slots. rewrite slot_app. change (sname (p_at i)) with ((fun i => sname (p_at i)) i).
    replace (mfind ((fun i0 : nat => sname (p_at i0)) i) (map (fun i0 : nat => (sname (p_at i0), Some d)) (seq 0 k))) with (Some (Some d)); [reflexivity|]. symmetry.
    apply (find_tagged _ _ (fun i => sname (p_at i)) (fun _ => Some d)); [|apply in_seq; lia]. intros y Hy Q. apply in_seq in Hy. apply sname_inj in Q. apply p_inj; [lia|exact Hi|exact Q].
  Qed.
  Lemma slot_vs : forall n, In n vs -> slot state_slots n = Some d /\ slot placed_slots n = Some d.
  Proof.
    intros n H. rewrite vs_seq in H. apply in_map_iff in H as [i [<- Hi]]. apply in_seq in Hi. split; [|apply find_placed; lia]. unfold slot. rewrite find_state; [reflexivity|]. apply p_in. lia.
  Qed.
  Lemma renamed_outer : map (rename_one (map_out ps)) (keys outer_slots) = map sname kept ++ map (fun i => sname (p_at i)) (seq 0 k).
  Proof.
    unfold outer_slots, keys. rewrite !map_app, !map_map. cbn [fst]. f_equal; apply map_ext_in; intros i Hi.
    - apply rename_out_other. intros j Q. symmetry in Q. now apply out_not_site in Q.
    - apply in_seq in Hi. apply rename_out_at. lia.
  Qed.
  Lemma outer_nodup : NoDup (map (rename_one (map_out ps)) (keys outer_slots)).
  Proof.
    rewrite renamed_outer. apply NoDup_app_intro.
    - assert (G : forall l, NoDup l -> NoDup (map sname l)).
      { induction l as [|x l IH]; intro ND; [constructor|]. inversion ND; subst. cbn [map]. constructor; [|now apply IH]. intro Q. apply in_map_iff in Q as [y [Q Hy]]. apply sname_inj in Q. now subst. }
      apply G, NoDup_filter, NoDup_sites.
    - rewrite <- vs_seq. apply NoDup_vs.
    - intros n H1 H2. rewrite <- vs_seq in H2. apply in_map_iff in H1 as [p [<- H1]]. unfold kept in H1. apply filter_In in H1 as [_ H1]. rewrite member_true in H1 by exact H2. discriminate.
  Qed.
  Lemma outer_state : forall n, slot (map (fun p => (rename_one (map_out ps) (fst p), snd p)) outer_slots) n = slot state_slots n.
  Proof.
    intro n. replace (map (fun p => (rename_one (map_out ps) (fst p), snd p)) outer_slots) with (map (fun p => (sname p, Some d)) (kept ++ ps)).
    - unfold slot. destruct (state_dec n) as [[p [Hp ->]]|Hn].
      + rewrite find_state by exact Hp. rewrite (find_tagged _ _ sname (fun _ => Some d)); [reflexivity|intros y _ Q; now apply sname_inj|]. apply in_or_app.
        destruct (member (sname p) vs) eqn:Q; [right; apply in_vs; now apply member_iff|left; unfold kept; apply filter_In; split; [exact Hp|now rewrite Q]].
      + rewrite find_state_none by exact Hn. rewrite (find_untagged _ _ sname (fun _ => Some d)); [reflexivity|]. intros p Hp. apply Hn. apply in_app_or in Hp as [Hp|Hp]; [now apply filter_In in Hp|].
        apply in_sites_iff. destruct Hps as [_ F]. rewrite Forall_forall in F. now apply F.
    - unfold outer_slots. rewrite !map_app, !map_map. cbn [fst snd]. f_equal.
      + apply map_ext. intro p. f_equal. symmetry. apply rename_out_other. intros j Q. symmetry in Q. now apply out_not_site in Q.
      + rewrite ps_map at 1. rewrite map_map. apply map_ext_in. intros i Hi. apply in_seq in Hi. f_equal. symmetry. apply rename_out_at. lia.
  Qed.
  Definition outer_point (s : nat -> nat -> nat) : list (nat * nat) := combine (map out_name (seq 0 k)) (map (fun p => s (fst p) (snd p)) ps) ++ pt s.
  Lemma nth_names : forall (f : nat -> nat) i, i < k -> nth_error (map f (seq 0 k)) i = Some (f i).
  Proof. intros f i Hi. now apply nth_row. Qed.
  Lemma outer_out : forall s i, i < k -> index (outer_point s) (out_name i) = s (fst (p_at i)) (snd (p_at i)).
  Proof.
    intros s i Hi. unfold outer_point. rewrite index_app. rewrite (find_combine _ _ _ i (out_name i) (s (fst (p_at i)) (snd (p_at i)))); [reflexivity| | |].
    - apply NoDup_tag. intros a b _ _. apply out_name_inj.
    - now apply nth_names.
    - rewrite nth_error_map. unfold p_at. now rewrite (nth_error_nth' ps (0, 0) Hi).
  Qed.
  Lemma outer_site : forall s p, In p (sites M N) -> index (outer_point s) (sname p) = s (fst p) (snd p).
  Proof.
    intros s p Hp. unfold outer_point. rewrite index_app. rewrite find_combine_none; [unfold index; now rewrite find_pt|]. intro Q. apply in_map_iff in Q as [i [Q _]]. now apply out_not_site in Q.
  Qed.
  Lemma outer_in : forall s, spins_within M N d s -> in_slots outer_slots (outer_point s).
  Proof.
    intros s Hs. apply in_slots_all. apply Forall_forall. intros n Hn. left. unfold outer_slots, keys in Hn. rewrite map_app, !map_map in Hn. cbn [fst] in Hn. apply in_app_or in Hn.
    assert (Sl : forall n, In n (keys outer_slots) -> slot outer_slots n = Some d).
    { intros m Hm. unfold slot. destruct (mfind m outer_slots) as [o|] eqn:F; [|apply mfind_None in F; contradiction]. apply mfind_In in F. unfold outer_slots in F. apply in_app_or in F as [F|F]; apply in_map_iff in F as [y [Q _]]; congruence. }
    rewrite Sl by (unfold outer_slots, keys; rewrite map_app, !map_map; cbn [fst]; now apply in_or_app). cbn [size]. destruct Hn as [Hn|Hn]; apply in_map_iff in Hn as [y [<- Hy]].
    - unfold kept in Hy. apply filter_In in Hy as [Hy _]. rewrite outer_site by exact Hy. apply in_sites_iff in Hy. now apply Hs.
    - apply in_seq in Hy. rewrite outer_out by lia. destruct (p_in y) as [_ Hp]; [lia|]. apply in_sites_iff in Hp. now apply Hs.
  Qed.
  (** an index of a contracted edge *)
  Lemma idx_site : forall s idx p, length idx = k -> In p (sites M N) -> index (combine vs idx ++ outer_point s) (sname p) = spins_put s ps idx (fst p) (snd p).
  Proof.
    intros s idx p HL Hp. rewrite index_app, (outer_site s p Hp). unfold spins_put, vs. clear - HL. revert idx HL. destruct p as [i j]. cbn [fst snd]. induction ps as [|q l IH]; intros idx HL; [reflexivity|].
    destruct idx as [|x idx]; [discriminate|]. cbn [map combine mfind find fst snd]. destruct (pair_spec q (i, j)) as [->|D].
    - now rewrite eqb_refl.
    - rewrite neqb by (intro Q; apply sname_inj in Q; congruence). apply IH. now injection HL.
  Qed.
  Lemma idx_at : forall s idx i, length idx = k -> i < k -> index (combine vs idx ++ outer_point s) (sname (p_at i)) = nth i idx 0.
  Proof.
    intros s idx i HL Hi. rewrite index_app. rewrite (find_combine _ vs idx i (sname (p_at i)) (nth i idx 0)); [reflexivity|apply NoDup_vs| |apply nth_error_nth'; lia].
    rewrite vs_seq. now rewrite (nth_row _ (fun i => sname (p_at i)) i k Hi).
  Qed.
  Lemma placed_value : forall s idx, length idx = k -> value (edge_rename A (map_in ps)) (combine vs idx ++ outer_point s) = operator_element k A idx (map (fun p => s (fst p) (snd p)) ps).
  Proof.
    intros s idx HL. unfold operator_element. apply (rename_value A op_slots (map_in ps) _ _ op_has renamed_nodup). intros n Hn. apply slot_keys in Hn. unfold op_slots, keys in Hn. rewrite map_app, !map_map in Hn. cbn [fst] in Hn.
    rewrite index_app. apply in_app_or in Hn as [Hn|Hn]; apply in_map_iff in Hn as [i [<- Hi]]; apply in_seq in Hi.
    - rewrite rename_in_at by lia. rewrite idx_at by (auto; lia). rewrite (find_combine _ _ _ i (in_name i) (nth i idx 0)); [reflexivity| | |].
      + apply NoDup_tag. intros a b _ _. apply in_name_inj.
      + apply nth_names. lia.
      + apply nth_error_nth'. lia.
    - rewrite rename_in_other by (intros j Q; now apply (in_not_out j i)). rewrite find_combine_none by (intro Q; apply in_map_iff in Q as [j [Q _]]; now apply in_not_out in Q).
      rewrite index_app. rewrite find_combine_none by (intro Q; unfold vs in Q; apply in_map_iff in Q as [p [Q _]]; symmetry in Q; now apply out_not_site in Q). rewrite outer_out by lia.
      unfold index. rewrite (find_combine _ _ _ i (out_name i) (s (fst (p_at i)) (snd (p_at i)))); [reflexivity| | |].
      + apply NoDup_tag. intros a b _ _. apply out_name_inj.
      + apply nth_names. lia.
      + rewrite nth_error_map. unfold p_at. rewrite (nth_error_nth' ps (0, 0)) by lia. reflexivity.
  Qed.
  Theorem apply_term_ok : forall v, exact_state M N d v -> exists w, apply_term E J v ps A = Ok w /\ exact_state M N d w /\
    forall s, spins_within M N d s -> component M N w s = applied d ps A (component M N v) s.
  Proof.
    intros v Hv. apply exact_state_has in Hv.
    destruct (all_edges_has EA E J HJ v (edge_rename A (map_in ps)) state_slots placed_slots vs Hv placed_has NoDup_vs) as [r [R1 [R2 R3]]].
    - intros n H1 H2. apply state_keys in H1 as [p [Hp ->]]. apply in_vs. unfold placed_slots, keys in H2. rewrite map_app, !map_map in H2. cbn [fst] in H2. apply in_app_or in H2 as [H2|H2]; apply in_map_iff in H2 as [i [Q Hi]].
      + apply sname_inj in Q. subst p. apply in_seq in Hi. apply p_in. lia.
      + now apply out_not_site in Q.
    - intros n Hn. destruct (slot_vs n Hn) as [A1 A2]. split; congruence.
    - rewrite outer_eq in R2, R3. unfold apply_term. rewrite R1. cbn [bind]. exists (edge_rename r (map_out ps)). split; [reflexivity|].
      assert (HW : has (edge_rename r (map_out ps)) state_slots) by (eapply has_ext; [apply (rename_has r outer_slots (map_out ps) R2 outer_nodup)|apply outer_state]).
      split; [now apply exact_state_has|]. intros s Hs. unfold component at 1. fold (pt s).
      rewrite (rename_value r outer_slots (map_out ps) (pt s) (outer_point s) R2 outer_nodup).
      + rewrite (R3 _ (outer_in s Hs)). unfold applied. rewrite (map_ext_in _ (fun _ => d)) by (intros n Hn; destruct (slot_vs n Hn) as [-> _]; reflexivity).
        assert (RP : map (fun _ : nat => d) vs = repeat d k) by (unfold vs; rewrite map_map; clear; induction ps as [|p l IH]; [reflexivity|]; cbn [map length repeat]; now rewrite IH).
        rewrite RP. apply Sums_ext. intros idx Hidx. assert (HL : length idx = k) by (apply Forall2_len in Hidx; now rewrite repeat_length in Hidx).
        rewrite (placed_value s idx HL). f_equal. apply (component_value v _ _ Hv). intros p Hp. now apply idx_site.
      + intros n Hn. apply slot_keys in Hn. unfold outer_slots, keys in Hn. rewrite map_app, !map_map in Hn. cbn [fst] in Hn. apply in_app_or in Hn as [Hn|Hn]; apply in_map_iff in Hn as [y [<- Hy]].
        * rewrite rename_out_other by (intros j Q; symmetry in Q; now apply out_not_site in Q). unfold kept in Hy. apply filter_In in Hy as [Hy _]. rewrite outer_site by exact Hy. unfold index. now rewrite find_pt.
        * apply in_seq in Hy. rewrite rename_out_at by lia. rewrite outer_out by lia. destruct (p_in y) as [_ Hp]; [lia|]. unfold index. now rewrite find_pt.
  Qed.
End Apply.
