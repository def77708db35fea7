(** Groups of edges: flags, table lookups and strides. *)
From Coq Require Import String List Bool Arith Lia Sorted Permutation.
From Verif Require Import Base.Outcome Base.SMap Model.Symmetry Model.Edge Model.Core Model.Transpose Model.EdgeOperator
  Spec.Blocks Spec.Fuse Spec.Strided Proof.SymmetryFacts Proof.LoopFacts Proof.CoreFacts Proof.ElemFacts Proof.OffsetFacts
  Proof.TransposeFacts.
Import ListNotations.

(** ** group_by *)
Lemma group_by_length : forall A B (groups : list (list B)) (l : list A), length (group_by groups l) = length groups.
Proof. induction groups; simpl; auto. Qed.
Lemma concat_group_by : forall A B (groups : list (list B)) (l : list A), length l = length (concat groups) ->
  concat (group_by groups l) = l.
Proof.
  induction groups as [|g gs IH]; simpl; intros l H.
  - now destruct l.
  - rewrite app_length in H. rewrite IH; [apply firstn_skipn|]. rewrite skipn_length. lia.
Qed.
Lemma map_group_by : forall A A' B (f : A -> A') (groups : list (list B)) (l : list A),
  group_by groups (map f l) = map (map f) (group_by groups l).
Proof. induction groups as [|g gs IH]; simpl; intros; auto. rewrite firstn_map, skipn_map. now rewrite IH. Qed.
Lemma group_by_concat : forall A (groups : list (list A)), group_by groups (concat groups) = groups.
Proof.
  induction groups as [|g gs IH]; simpl; auto. rewrite firstn_app, Nat.sub_diag, firstn_all, firstn_O, app_nil_r.
  rewrite skipn_app, Nat.sub_diag, skipn_all. simpl. now rewrite IH.
Qed.
Lemma group_by_app : forall A B (g : list B) gs (a b : list A), length a = length g ->
  group_by (g :: gs) (a ++ b) = a :: group_by gs b.
Proof.
  intros A B g gs a b H. simpl. rewrite <- H.
  rewrite firstn_app, Nat.sub_diag, firstn_all, firstn_O, app_nil_r.
  rewrite skipn_app, Nat.sub_diag, skipn_all. reflexivity.
Qed.
Lemma group_by_lengths : forall A B C (g1 : list (list B)) (g2 : list (list C)) (l : list A),
  map (@length B) g1 = map (@length C) g2 -> group_by g1 l = group_by g2 l.
Proof.
  induction g1 as [|a g1 IH]; intros [|b g2] l H; simpl in *; try discriminate; auto.
  injection H as -> H. f_equal. now apply IH.
Qed.
Lemma length_concat_eq : forall B C (g1 : list (list B)) (g2 : list (list C)),
  map (@length B) g1 = map (@length C) g2 -> length (concat g1) = length (concat g2).
Proof.
  induction g1 as [|a g1 IH]; intros [|b g2] H; simpl in *; try discriminate; auto.
  injection H as H1 H. rewrite !app_length, H1. f_equal. now apply IH.
Qed.

Lemma flags_from_lengths : forall B C (g1 : list (list B)) (g2 : list (list C)) i,
  map (@length B) g1 = map (@length C) g2 -> flags_from i g1 = flags_from i g2.
Proof.
  induction g1 as [|a g1 IH]; intros [|b g2] i H; simpl in *; try discriminate; auto.
  injection H as H1 H. f_equal; [|now apply IH].
  clear IH H. revert b H1. induction a; intros [|? b] H1; simpl in *; try discriminate; auto. f_equal. auto.
Qed.
Lemma flags_from_ge : forall A (groups : list (list A)) i f, In f (flags_from i groups) -> i <= f.
Proof.
  induction groups as [|g gs IH]; simpl; intros i f H; [contradiction|].
  apply in_app_or in H as [H|H]; [apply in_map_iff in H as [_ [<- _]]; lia|]. apply IH in H. lia.
Qed.
Lemma flags_from_length : forall A (groups : list (list A)) i, length (flags_from i groups) = length (concat groups).
Proof. induction groups; simpl; intros; auto. rewrite !app_length, map_length. auto. Qed.

Section Take.
  Context {S : Type} {SS : Sym S}.
  Lemma take_group_spec : forall A (g : list A) (gs : list (list A)) i (a b : list S), length a = length g ->
    take_group i (a ++ b) (map (fun _ => i) g ++ flags_from (1 + i) gs) = (a, b, flags_from (1 + i) gs).
  Proof.
    induction g as [|x g IH]; intros gs i a b H; destruct a as [|s a]; try discriminate.
    - cbn [app map]. destruct b as [|s b]; [reflexivity|].
      destruct (flags_from (1 + i) gs) as [|f fs] eqn:E; [reflexivity|].
      cbn [take_group]. assert (1 + i <= f) by (apply (flags_from_ge _ gs); rewrite E; now left).
      replace (Nat.eqb f i) with false; [reflexivity|]. symmetry. apply Nat.eqb_neq. lia.
    - cbn [app map take_group]. rewrite Nat.eqb_refl. rewrite IH by (simpl in H; lia). reflexivity.
  Qed.

  (** the lookup of one group *)
  Definition look1 (off : offset_map) (g : list S) : option (S * nat) :=
    match g with [s] => Some (s, 0) | _ => mfind g off end.
  Fixpoint look (offs : list offset_map) (gs : list (list S)) : option (list (S * nat)) :=
    match offs, gs with
    | off :: offs', g :: gs' =>
        match look1 off g, look offs' gs' with
        | Some so, Some l => Some (so :: l)
        | _, _ => None
        end
    | _, _ => Some []
    end.
  Lemma group_lookup_look : forall A (groups : list (list A)) i offs (syms : list S),
    length offs = length groups -> length syms = length (concat groups) ->
    group_lookup i offs (flags_from i groups) syms = look offs (group_by groups syms).
  Proof.
    induction groups as [|g gs IH]; intros i [|off offs] syms H1 H2; simpl in H1, H2; try discriminate; auto.
    rewrite app_length in H2.
    assert (E : syms = firstn (length g) syms ++ skipn (length g) syms) by (symmetry; apply firstn_skipn).
    assert (HL : length (firstn (length g) syms) = length g) by (rewrite firstn_length; lia).
    cbn [group_lookup flags_from]. rewrite E at 1. rewrite take_group_spec by auto.
    cbn [group_by look]. fold (look1 off (firstn (length g) syms)).
    destruct (look1 off (firstn (length g) syms)) as [so|]; [|reflexivity].
    rewrite IH; [|lia|rewrite skipn_length; lia].
    destruct (look offs (group_by gs (skipn (length g) syms))); reflexivity.
  Qed.
End Take.

(** ** strides *)
Fixpoint sub_leadings (v : nat) (dims : list nat) : list nat :=
  match dims with
  | [] => []
  | _ :: ds => v * prod ds :: sub_leadings v ds
  end.
Lemma leadings_sub : forall dims, leadings dims = sub_leadings 1 dims.
Proof.
  induction dims as [|d ds IH]; [reflexivity|]. destruct ds as [|d2 ds]; [reflexivity|].
  change (leadings (d :: d2 :: ds)) with (hd 0 (leadings (d2 :: ds)) * d2 :: leadings (d2 :: ds)).
  rewrite IH. simpl. f_equal. unfold prod. simpl. lia.
Qed.
Lemma sub_leadings_length : forall v dims, length (sub_leadings v dims) = length dims.
Proof. induction dims; simpl; auto. Qed.
Lemma dot_sub_leadings : forall dims idx v, length dims = length idx -> dot idx (sub_leadings v dims) = v * row_major dims idx.
Proof.
  induction dims as [|d ds IH]; intros [|i idx] v H; simpl in *; try discriminate.
  - cbn. lia.
  - rewrite row_major_cons by lia. rewrite IH by lia. nia.
Qed.
Lemma group_leadings_app : forall A (gdims : list nat) (g : list A) (gs : list (list A)) i rest outer,
  length g = length gdims ->
  group_leadings (map (fun _ => i) g ++ flags_from (1 + i) gs) (gdims ++ rest) outer
  = sub_leadings (nth i outer 0) gdims ++ group_leadings (flags_from (1 + i) gs) rest outer.
Proof.
  induction gdims as [|d ds IH]; intros g gs i rest outer H; destruct g as [|x g]; try discriminate; [reflexivity|].
  cbn [map app group_leadings]. rewrite IH by (simpl in H; lia).
  destruct ds as [|d2 ds].
  - destruct g; [|discriminate]. cbn [map app sub_leadings].
    destruct (flags_from (1 + i) gs) as [|f fs] eqn:E.
    + unfold prod; simpl. f_equal. lia.
    + destruct rest as [|r rest].
      * unfold prod; simpl. f_equal. lia.
      * assert (1 + i <= f) by (apply (flags_from_ge _ gs); rewrite E; now left).
        replace (Nat.eqb i f) with false by (symmetry; apply Nat.eqb_neq; lia).
        unfold prod. cbn [fold_right]. now rewrite Nat.mul_1_r.
  - destruct g as [|y g]; [discriminate|]. cbn [map app]. rewrite Nat.eqb_refl.
    cbn [sub_leadings app hd]. f_equal. unfold prod. cbn [fold_right]. lia.
Qed.
Lemma dot_app : forall a b c d, length a = length c -> dot (a ++ b) (c ++ d) = dot a c + dot b d.
Proof. induction a as [|x a IH]; intros b [|y c] d H; simpl in *; try discriminate; auto. rewrite IH by lia. lia. Qed.

(** row-major positions inside each group *)
Definition inner (groups_dims groups_idx : list (list nat)) : list nat :=
  map (fun di => row_major (fst di) (snd di)) (combine groups_dims groups_idx).

Lemma dot_group_leadings : forall A (groups : list (list A)) i dims idx outer,
  length dims = length (concat groups) -> length idx = length (concat groups) -> i + length groups <= length outer ->
  dot idx (group_leadings (flags_from i groups) dims outer)
  = dot (inner (group_by groups dims) (group_by groups idx)) (skipn i outer).
Proof.
  induction groups as [|g gs IH]; intros i dims idx outer H1 H2 H3.
  - simpl in *. destruct dims, idx; try discriminate. reflexivity.
  - simpl in H1, H2, H3. rewrite app_length in *.
    assert (Ed : dims = firstn (length g) dims ++ skipn (length g) dims) by (symmetry; apply firstn_skipn).
    assert (Ei : idx = firstn (length g) idx ++ skipn (length g) idx) by (symmetry; apply firstn_skipn).
    rewrite Ed at 1. rewrite Ei at 1. cbn [flags_from]. rewrite group_leadings_app by (rewrite firstn_length; lia).
    rewrite dot_app by (rewrite sub_leadings_length, !firstn_length; lia).
    rewrite dot_sub_leadings by (rewrite !firstn_length; lia).
    rewrite IH by (rewrite ?skipn_length; lia).
    cbn [group_by]. unfold inner. cbn [combine map fst snd].
    assert (Es : skipn i outer = nth i outer 0 :: skipn (1 + i) outer).
    { clear - H3. revert i H3. induction outer as [|o outer IH]; intros i H3; simpl in H3; [lia|]. destruct i; [reflexivity|].
      simpl. apply IH. lia. }
    rewrite Es. cbn [dot]. lia.
Qed.

Lemma row_major_dot : forall dims idx, length dims = length idx -> row_major dims idx = dot idx (leadings dims).
Proof. intros. rewrite leadings_sub, dot_sub_leadings by auto. lia. Qed.
Definition add2 (a b : list nat) : list nat := map (fun xy => fst xy + snd xy) (combine a b).
Lemma dot_add2 : forall a b c, length a = length b -> dot (add2 a b) c = dot a c + dot b c.
Proof.
  unfold add2. induction a as [|x a IH]; intros [|y b] [|z c] H; simpl in *; try discriminate; auto. rewrite IH by lia. lia.
Qed.
Lemma row_major_add2 : forall dims a b, length dims = length a -> length a = length b ->
  row_major dims (add2 a b) = row_major dims a + row_major dims b.
Proof.
  intros dims a b H1 H2. rewrite !row_major_dot; try lia.
  - apply dot_add2; auto.
  - unfold add2. rewrite map_length, combine_length. lia.
Qed.
Lemma total_offset_row_major : forall dims offs, total_offset dims offs = row_major dims offs.
Proof. reflexivity. Qed.

(** address in a grouped block *)
Lemma group_address : forall A (groups : list (list A)) odims offs dims idx,
  length odims = length groups -> length offs = length groups ->
  length dims = length (concat groups) -> length idx = length (concat groups) ->
  total_offset odims offs + dot idx (group_leadings (flags_from 0 groups) dims (leadings odims))
  = row_major odims (add2 offs (inner (group_by groups dims) (group_by groups idx))).
Proof.
  intros A groups odims offs dims idx H1 H2 H3 H4.
  assert (HL : length (inner (group_by groups dims) (group_by groups idx)) = length groups).
  { unfold inner. rewrite map_length, combine_length, !group_by_length. lia. }
  rewrite row_major_add2 by lia. rewrite total_offset_row_major. f_equal.
  rewrite dot_group_leadings; [|lia|lia|rewrite leadings_sub, sub_leadings_length; lia].
  simpl. rewrite row_major_dot by lia. reflexivity.
Qed.

(** ** plans *)
Lemma fold_pick_none : forall A (l : list (nat * A)) j d, ~ In j (map fst l) ->
  fold_left (fun acc pi => if Nat.eqb (fst pi) j then snd pi else acc) l d = d.
Proof.
  induction l as [|[p x] l IH]; intros j d H; simpl in *; auto.
  destruct (Nat.eqb_spec p j) as [->|]; [exfalso; apply H; auto|]. apply IH. tauto.
Qed.
Lemma fold_pick_nth : forall A (ps : list nat) (l : list A) d i, NoDup ps -> length ps = length l -> i < length l ->
  forall d', fold_left (fun acc pi => if Nat.eqb (fst pi) (nth i ps 0) then snd pi else acc) (combine ps l) d' = nth i l d.
Proof.
  induction ps as [|p ps IH]; intros [|x l] d i Hn HL Hi d'; simpl in *; try lia.
  inversion Hn; subst. destruct i.
  - rewrite Nat.eqb_refl. apply fold_pick_none. rewrite combine_map_fst by lia. auto.
  - assert (Hne : p <> nth i ps 0) by (intros ->; apply H1, nth_In; lia).
    apply Nat.eqb_neq in Hne. rewrite Hne. apply IH; auto; lia.
Qed.
Lemma scatter_permuted : forall A (d : A) rank s2d d2s l, inverse_plans rank s2d d2s -> length l = rank ->
  scatter d s2d l = permuted d d2s l.
Proof.
  intros A d rank s2d d2s l HP HL. pose proof HP as [L1 [L2 [H1 H2]]].
  assert (Hn : NoDup s2d).
  { destruct (inverse_plans_perm _ _ _ HP) as [_ HQ]. eapply Permutation_NoDup; [symmetry; exact HQ|apply seq_NoDup]. }
  unfold scatter, permuted. rewrite HL.
  transitivity (map (fun j => nth (nth j d2s 0) l d) (seq 0 rank)).
  - apply map_ext_in. intros j Hj. apply in_seq in Hj. destruct (H2 j) as [Hb E]; [lia|].
    pose proof (fold_pick_nth A s2d l d (nth j d2s 0) Hn ltac:(lia) ltac:(lia) d) as K. rewrite E in K. exact K.
  - rewrite <- (map_map (fun j => nth j d2s 0) (fun j => nth j l d)). f_equal. now rewrite map_nth_seq.
Qed.
Lemma invert_plan_inverse : forall rank d2s, length d2s = rank -> NoDup d2s -> (forall x, In x d2s -> x < rank) ->
  inverse_plans rank (invert_plan d2s) d2s.
Proof.
  intros rank d2s HL Hn Hb.
  assert (Hnth : forall i, i < rank -> nth i (invert_plan d2s) 0 =
     fold_left (fun acc dj => if Nat.eqb (snd dj) i then fst dj else acc) (combine (seq 0 rank) d2s) 0).
  { intros i Hi. unfold invert_plan. rewrite HL.
    set (f := fun i => fold_left (fun acc (dj : nat * nat) => if Nat.eqb (snd dj) i then fst dj else acc) (combine (seq 0 rank) d2s) 0).
    rewrite (nth_indep _ 0 (f 0)) by (now rewrite map_length, seq_length). rewrite (map_nth f), seq_nth by lia. reflexivity. }
  assert (Hpick : forall (ps l : list nat) k j d', NoDup l -> length ps = length l -> j < length l ->
     fold_left (fun acc (dj : nat * nat) => if Nat.eqb (snd dj) (nth j l k) then fst dj else acc) (combine ps l) d' = nth j ps 0).
  { clear. intros ps. induction ps as [|p ps IH]; intros [|x l] k j d' Hn HL Hj; simpl in *; try lia.
    inversion Hn; subst. destruct j.
    - rewrite Nat.eqb_refl. clear - H1 HL. assert (HL' : length ps = length l) by lia. clear HL.
      revert l H1 HL'. generalize p as acc. induction ps as [|q ps IH]; intros acc [|y l] H1 HL; simpl in *; try discriminate; auto.
      destruct (Nat.eqb_spec y x) as [->|]; [exfalso; auto|]. apply IH; [tauto|lia].
    - assert (Hne : x <> nth j l k) by (intros ->; apply H1, nth_In; lia). apply Nat.eqb_neq in Hne. rewrite Hne.
      apply IH; auto; lia. }
  assert (Hback : forall j, j < rank -> nth (nth j d2s 0) (invert_plan d2s) 0 = j).
  { intros j Hj. rewrite Hnth by (apply Hb, nth_In; lia).
    rewrite Hpick by (rewrite ?seq_length; auto; lia). rewrite seq_nth; lia. }
  split; [unfold invert_plan; now rewrite map_length, seq_length|]. split; [exact HL|]. split.
  - intros i Hi.
    assert (HI : In i d2s).
    { assert (HP : Permutation d2s (seq 0 rank)) by (apply NoDup_full; auto).
      apply (Permutation_in _ (Permutation_sym HP)). apply in_seq. lia. }
    apply (In_nth _ _ 0) in HI as [j [Hj Ej]]. rewrite HL in Hj.
    assert (E : nth i (invert_plan d2s) 0 = j) by (rewrite <- Ej; now apply Hback).
    rewrite E. auto.
  - intros j Hj. split; [apply Hb, nth_In; lia|now apply Hback].
Qed.

Lemma permuted_map : forall A B (f : A -> B) d plan (l : list A), permuted (f d) plan (map f l) = map f (permuted d plan l).
Proof. intros. unfold permuted. rewrite map_map. apply map_ext. intro j. apply map_nth. Qed.
Lemma permuted_length : forall A (d : A) plan l, length (permuted d plan l) = length plan.
Proof. intros. unfold permuted. apply map_length. Qed.
Lemma permuted_Permutation : forall A (d : A) rank s2d d2s l, inverse_plans rank s2d d2s -> length l = rank ->
  Permutation (permuted d d2s l) l.
Proof.
  intros A d rank s2d d2s l HP HL. unfold permuted.
  destruct (inverse_plans_perm _ _ _ HP) as [HQ _]. rewrite (Permutation_map (fun j => nth j l d) HQ).
  now rewrite map_nth_seq.
Qed.
Lemma permuted_inverse : forall A (d : A) rank s2d d2s l, inverse_plans rank s2d d2s -> length l = rank ->
  permuted d d2s (permuted d s2d l) = l.
Proof.
  intros A d rank s2d d2s l HP HL. pose proof HP as [L1 [L2 [H1 H2]]].
  apply (nth_ext _ _ d d).
  - rewrite !permuted_length. lia.
  - intros j Hj. rewrite permuted_length in Hj. unfold permuted.
    rewrite (nth_indep _ d (nth 0 (map (fun j0 => nth j0 l d) s2d) d)) by (rewrite map_length; auto).
    rewrite (map_nth (fun j0 => nth j0 (map (fun j1 => nth j1 l d) s2d) d)).
    destruct (H2 j) as [Hb E]; [lia|].
    rewrite (nth_indep _ d (nth 0 l d)) by (rewrite map_length; lia).
    rewrite (map_nth (fun j1 => nth j1 l d)). now rewrite E.
Qed.
Lemma permuted_inj : forall A (d : A) rank s2d d2s l1 l2, inverse_plans rank s2d d2s -> length l1 = rank -> length l2 = rank ->
  permuted d d2s l1 = permuted d d2s l2 -> l1 = l2.
Proof.
  intros A d rank s2d d2s l1 l2 HP H1 H2 E.
  rewrite <- (permuted_inverse A d rank d2s s2d l1 (inverse_plans_sym _ _ _ HP) H1).
  rewrite <- (permuted_inverse A d rank d2s s2d l2 (inverse_plans_sym _ _ _ HP) H2). now rewrite E.
Qed.
Lemma Forall2_permuted : forall A B (P : A -> B -> Prop) da db plan l1 l2, Forall2 P l1 l2 ->
  (forall j, In j plan -> j < length l1) -> Forall2 P (permuted da plan l1) (permuted db plan l2).
Proof.
  intros A B P da db plan l1 l2 HF Hp. unfold permuted. induction plan as [|j plan IH]; simpl; constructor.
  - assert (Hj : j < length l1) by (apply Hp; now left).
    clear - HF Hj. revert j Hj. induction HF; intros j Hj; simpl in *; [lia|]. destruct j; auto. apply IHHF. lia.
  - apply IH. intros; apply Hp; now right.
Qed.

(** ** name index *)
Lemma name_index : forall names n i, NoDup names ->
  (mfind n (construct_name_to_index names) = Some i <-> nth_error names i = Some n).
Proof.
  intros names n i Hn.
  assert (G : forall (l : list (name * nat)) m, NoDup (map fst l) -> forall k,
     mfind k (fold_left (fun m kv => mset (fst kv) (snd kv) m) l m) =
     match mfind k l with Some v => Some v | None => mfind k m end).
  { induction l as [|[k0 v0] l IH]; intros m HN k; simpl; auto. inversion HN; subst. rewrite IH by auto.
    destruct (eqb k k0) eqn:E.
    - apply eqb_eq in E. subst k0. replace (mfind k l) with (@None nat); [apply mfind_mset_same|].
      symmetry. now apply mfind_None.
    - apply eqb_false in E. rewrite mfind_mset_other by auto. reflexivity. }
  unfold construct_name_to_index, of_list. rewrite G.
  2:{ rewrite combine_map_fst; auto. now rewrite seq_length. }
  assert (H : forall (ns : list name) k, NoDup ns -> (mfind n (combine ns (seq k (length ns))) = Some (k + i) <-> nth_error ns i = Some n)).
  { clear. intros ns. revert i. induction ns as [|m ns IH]; intros i k HN; simpl.
    - split; [discriminate|]. destruct i; discriminate.
    - inversion HN; subst. unfold eqb at 1. simpl. destruct (Nat.compare_spec n m) as [->|Hlt|Hgt].
      + split; intro E.
        * injection E as E. assert (i = 0) by lia. subst. reflexivity.
        * destruct i; [f_equal; lia|]. simpl in E. apply nth_error_In in E. contradiction.
      + destruct i as [|i].
        * split; intro E.
          -- exfalso. apply mfind_In in E. apply in_combine_r in E. apply in_seq in E. lia.
          -- injection E as ->. lia.
        * simpl. rewrite <- (IH i (Datatypes.S k)) by auto. replace (k + Datatypes.S i) with (Datatypes.S k + i) by lia. reflexivity.
      + destruct i as [|i].
        * split; intro E.
          -- exfalso. apply mfind_In in E. apply in_combine_r in E. apply in_seq in E. lia.
          -- injection E as ->. lia.
        * simpl. rewrite <- (IH i (Datatypes.S k)) by auto. replace (k + Datatypes.S i) with (Datatypes.S k + i) by lia. reflexivity. }
  specialize (H names 0 Hn). simpl in H. rewrite <- H.
  destruct (mfind n (combine names (seq 0 (length names)))); simpl; split; congruence.
Qed.
Lemma name_index_none : forall names n, NoDup names -> ~ In n names -> mfind n (construct_name_to_index names) = None.
Proof.
  intros names n Hn HI. destruct (mfind n (construct_name_to_index names)) as [i|] eqn:E; auto.
  apply name_index in E; auto. apply nth_error_In in E. contradiction.
Qed.

(** positions of target names *)
Lemma plan_of_names : forall names target, NoDup names -> Permutation names target ->
  exists d2s, mapM (fun n => match mfind n (construct_name_to_index names) with
                             | Some i => Ok i
                             | None => tat_error "Tensor to transpose with incompatible name list"%string
                             end) target = Ok d2s /\
    inverse_plans (length names) (invert_plan d2s) d2s /\ target = permuted 0 d2s names.
Proof.
  intros names target Hn HP.
  set (idx := fun n => match mfind n (construct_name_to_index names) with Some i => i | None => 0 end).
  assert (Hidx : forall n, In n target -> exists i, mfind n (construct_name_to_index names) = Some i /\ nth_error names i = Some n).
  { intros n HI. apply (Permutation_in _ (Permutation_sym HP)) in HI. apply In_nth_error in HI as [i Hi].
    exists i. split; auto. now apply name_index. }
  exists (map idx target). split; [|split].
  - apply mapM_all_ok. intros n HI. destruct (Hidx n HI) as [i [E _]]. unfold idx. now rewrite E.
  - assert (HL : length names = length target) by now apply Permutation_length.
    apply invert_plan_inverse.
    + rewrite map_length. lia.
    + assert (Ht : NoDup target) by (eapply Permutation_NoDup; eauto).
      clear HL HP. induction target as [|n target IH]; simpl; constructor.
      * intro HI. apply in_map_iff in HI as [m [E Hm]].
        destruct (Hidx n (or_introl eq_refl)) as [i [Ei Ni]]. destruct (Hidx m (or_intror Hm)) as [j [Ej Nj]].
        unfold idx in E. rewrite Ei, Ej in E. subst. rewrite Ni in Nj. injection Nj as <-. now inversion Ht.
      * apply IH; [intros; apply Hidx; now right|now inversion Ht].
    + intros x Hx. apply in_map_iff in Hx as [n [<- HI]]. destruct (Hidx n HI) as [i [Ei Ni]]. unfold idx. rewrite Ei.
      apply nth_error_Some. congruence.
  - unfold permuted. rewrite map_map. rewrite <- (map_id target) at 1. apply map_ext_in. intros n HI.
    destruct (Hidx n HI) as [i [Ei Ni]]. unfold idx. rewrite Ei. symmetry. now apply nth_error_nth.
Qed.
