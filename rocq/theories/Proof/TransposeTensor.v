(** transpose: elements, edges, signs, composition. *)
From Coq Require Import String List Bool Arith Lia Sorted Permutation.
From Verif Require Import Base.Outcome Base.SMap Model.Symmetry Model.Edge Model.Core Model.Transpose Model.EdgeOperator
  Spec.Blocks Spec.Fuse Spec.Strided Spec.Sign Proof.SymmetryFacts Proof.LoopFacts Proof.CoreFacts Proof.ConstructFacts Proof.ElemFacts Proof.OffsetFacts
  Proof.KernelFacts Proof.TransposeFacts Proof.GroupFacts Proof.CopyLoopFacts Proof.TableFacts Proof.EdgeOperatorFacts Proof.EdgeOperatorMain Proof.SignFacts.
Import ListNotations.

Lemma nth_error_ext : forall A (l1 l2 : list A), (forall n, nth_error l1 n = nth_error l2 n) -> l1 = l2.
Proof.
  induction l1 as [|x l1 IH]; intros [|y l2] H; [reflexivity|specialize (H 0); discriminate|specialize (H 0); discriminate|].
  pose proof (H 0) as H0. injection H0 as ->. f_equal. apply IH. intro n. exact (H (S n)).
Qed.

Section Plain.
  Context {S R : Type} {SS : Sym S} {SL : SymLaws S} {RR : Scalar R}.
  Notation entry := (S * nat)%type.

  Lemma fuse_one : forall (m : list entry) (x : entry), fuse [m] [x] = x.
  Proof.
    intros m [s i]. unfold fuse. cbn [map fst snd]. rewrite merged_offset_one. unfold total. cbn [map fst]. rewrite ssum_one.
    unfold dims_in, flat_index. cbn [combine map fst snd fold_left]. reflexivity.
  Qed.
  Lemma fuses_singles : forall (ms : list (list entry)) (p : list entry), length p = length ms ->
    fuses (map (fun m => [m]) ms) (group_by (map (fun m => [m]) ms) p) = p.
  Proof.
    intros ms p H. rewrite group_singles by auto. unfold fuses. revert p H.
    induction ms as [|m ms IH]; intros [|x p] H; simpl in H; try discriminate; [reflexivity|].
    cbn [map combine fst snd]. rewrite fuse_one. f_equal. apply IH. lia.
  Qed.

  (** ** equality of cores from equality of elements *)
  Lemma shape_ext : forall b1 b2 : list (list S * list R), shape b1 = shape b2 ->
    (forall k x y n, In (k, x) b1 -> In (k, y) b2 -> length x = length y -> nth_error x n = nth_error y n) -> b1 = b2.
  Proof.
    induction b1 as [|[k x] b1 IH]; intros [|[k' y] b2] H He; try discriminate; [reflexivity|].
    cbn [shape map fst snd] in H. injection H as -> Hl Hs. f_equal.
    - f_equal. apply nth_error_ext. intro n. apply (He k'); auto; now left.
    - apply IH; auto. intros k0 x0 y0 n H1 H2 H3. apply (He k0); auto; now right.
  Qed.
  Lemma core_ext : forall c1 c2 : core S R, wf_core c1 -> wf_core c2 -> c_edges c1 = c_edges c2 ->
    (forall p, valid_pt c1 p -> elem c1 p = elem c2 p) -> c1 = c2.
  Proof.
    intros [e1 b1] [e2 b2] W1 W2 He H. cbn [c_edges] in He. subst e2. f_equal.
    apply shape_ext.
    - pose proof (wf_shape _ W1) as A1. pose proof (wf_shape _ W2) as A2. cbn [c_edges c_blocks] in *. congruence.
    - intros k x y n Hx Hy HL. destruct (Nat.lt_ge_cases n (length x)) as [Hn|Hn].
      + destruct (cell_coordinate (mkCore e1 b1) k x n W1 Hx Hn) as [pt [ds [V [K [D E]]]]].
        specialize (H pt V). unfold elem in H. cbn [c_edges c_blocks] in *. rewrite K, D in H.
        pose proof (In_mfind _ _ _ (wf_blocks_sorted _ W1) Hx) as F1. pose proof (In_mfind _ _ _ (wf_blocks_sorted _ W2) Hy) as F2.
        cbn [c_blocks] in F1, F2. rewrite F1, F2 in H.
        now rewrite E in H.
      + rewrite (proj2 (nth_error_None x n)) by lia. symmetry. apply nth_error_None. lia.
  Qed.
  Lemma tensor_ext : forall t1 t2 : tensor S R, wf_tensor t1 -> wf_tensor t2 -> t_names t1 = t_names t2 -> t_edges t1 = t_edges t2 ->
    (forall p, valid_pt (t_core t1) p -> elem (t_core t1) p = elem (t_core t2) p) -> t1 = t2.
  Proof.
    intros [n1 c1] [n2 c2] W1 W2 Hn He H. cbn [t_names] in Hn. subst n2. f_equal. apply core_ext; auto; [apply W1|apply W2].
  Qed.

  (** ** arguments without renaming, splitting, cutting *)
  Section Plain1.
    Variables (t : tensor S R) (a : @eo_args S).
    Hypothesis Hwf : wf_tensor t.
    Hypothesis Hren : a_rename a = [].
    Hypothesis Hsplit : a_split a = [].
    Hypothesis Hcut : a_cut a = [].

    Lemma plain_names1 : names1 t a = t_names t.
    Proof. unfold names1. rewrite Hren. unfold rename_one. cbn [mfind]. apply map_id. Qed.
    Lemma plain_edges1 : edges1 t a = t_edges t.
    Proof.
      unfold edges1. rewrite Hcut. unfold cut_edge. cbn [mfind]. pose proof (wf_rank _ Hwf) as HL. revert HL. 
      generalize (t_names t). generalize (t_edges t). induction l as [|e es IH]; intros [|n ns] HL; simpl in *; try discriminate; auto.
      f_equal. apply IH. lia.
    Qed.
    Lemma plain_parts : forall ne, parts a ne = [ne].
    Proof. intro ne. unfold parts. now rewrite Hsplit. Qed.
    Lemma plain_sgroups : sgroups t a = map (fun ne => [ne]) (combine (t_names t) (t_edges t)).
    Proof. unfold sgroups. rewrite plain_names1, plain_edges1. apply map_ext. exact plain_parts. Qed.
    Lemma plain_concat_sgroups : concat (sgroups t a) = combine (t_names t) (t_edges t).
    Proof. rewrite plain_sgroups. apply singles_concat. Qed.
    Lemma plain_names2 : names2 t a = t_names t.
    Proof. unfold names2. rewrite plain_concat_sgroups. apply combine_map_fst. apply Hwf. Qed.
    Lemma plain_edges2 : edges2 t a = t_edges t.
    Proof. unfold edges2. rewrite plain_concat_sgroups. apply combine_map_snd. apply Hwf. Qed.
    Lemma plain_gms : gms t a = map (fun m => [m]) (maps_of (t_edges t)).
    Proof.
      unfold gms, mks. rewrite plain_names1, plain_edges1, map_map. rewrite <- (singles_of (t_names t)) by apply Hwf.
      apply map_ext. intro ne. cbn [fst]. now rewrite plain_parts.
    Qed.
    Lemma plain_concat_gms : concat (gms t a) = maps_of (t_edges t).
    Proof. rewrite plain_gms. apply singles_concat. Qed.
    Lemma plain_src_pt : forall p, length p = length (t_edges t) -> src_pt t a p = p.
    Proof. intros p H. unfold src_pt. rewrite plain_gms. apply fuses_singles. unfold maps_of. now rewrite map_length. Qed.
    Lemma plain_kept : forall key, kept t a key = true.
    Proof.
      intro key. unfold kept, all_kept. apply forallb_forall. intros [mk k] HI. apply in_combine_l in HI.
      unfold mks in HI. apply in_map_iff in HI as [ne [<- _]]. cbn [fst snd]. unfold keep. rewrite Hsplit. reflexivity.
    Qed.
    Lemma plain_rev2 : a_reversed a = [] -> rev2 t a = map (fun _ => false) (t_names t).
    Proof. intro H. unfold rev2. rewrite plain_names2, H. apply map_ext. intro. apply andb_false_r. Qed.
    Lemma plain_split_parity : forall key marks, length key = length (t_names t) -> length marks = length (t_names t) ->
      get_split_merge_parity key (flags_from 0 (sgroups t a)) marks = false.
    Proof.
      intros key marks Hk Hm. unfold get_split_merge_parity. rewrite plain_sgroups.
      assert (HL : length (combine (t_names t) (t_edges t)) = length (t_names t)).
      { rewrite combine_length, (wf_rank _ Hwf). lia. }
      rewrite split_merge_parity_groups.
      - apply par_false. intros [m g] HI. apply in_combine_r in HI. rewrite group_singles in HI by lia.
        apply in_map_iff in HI as [s [<- _]]. cbn [fst snd]. apply andb_false_r.
      - rewrite singles_concat. lia.
      - rewrite map_length. lia.
    Qed.
  End Plain1.

  (** ** arguments without merging *)
  Section Plain2.
    Variables (E : @env R) (t : tensor S R) (a : @eo_args S) (d2s : list nat).
    Hypothesis Hpre : eo_pre E t a.
    Hypothesis Hmerge : a_merge a = [].
    Hypothesis Hplans : inverse_plans (length (names2 t a)) (invert_plan d2s) d2s.
    Hypothesis Hnames : concat (groups a) = permuted 0 d2s (names2 t a).

    Lemma nomerge_groups : groups a = map (fun n => [n]) (a_new_names a).
    Proof. now apply nil_groups. Qed.
    Lemma nomerge_len : length (a_new_names a) = length d2s.
    Proof.
      pose proof Hnames as H. rewrite nomerge_groups, singles_concat in H. rewrite H. apply permuted_length.
    Qed.
    Lemma nomerge_gmd : gmd t a d2s = map (fun m => [m]) (permuted [] d2s (concat (gms t a))).
    Proof.
      unfold gmd. rewrite nomerge_groups. apply group_singles. rewrite permuted_length. symmetry. apply nomerge_len.
    Qed.
    Lemma nomerge_dst_pt : forall p, dst_pt t a d2s p = permuted (szero, 0) d2s p.
    Proof.
      intro p. unfold dst_pt. rewrite nomerge_gmd. apply fuses_singles. now rewrite !permuted_length.
    Qed.
    Lemma nomerge_stage : merge_stage E t a d2s = Ok (map (fun e => ([e], [false], e, [])) (edges4 t a d2s)).
    Proof. unfold merge_stage. rewrite Hmerge. reflexivity. Qed.
    Lemma nomerge_result : forall mr, merge_stage E t a d2s = Ok mr -> result_edges mr = edges4 t a d2s.
    Proof.
      intros mr H. rewrite nomerge_stage in H. injection H as <-. unfold result_edges. rewrite map_map. apply map_id.
    Qed.
    Lemma nomerge_flags : forall mr, merge_stage E t a d2s = Ok mr ->
      concat (map (fun x => snd (fst (fst x))) mr) = map (fun _ => false) (edges4 t a d2s).
    Proof.
      intros mr H. rewrite nomerge_stage in H. injection H as <-. rewrite map_map. cbn [fst snd].
      induction (edges4 t a d2s); simpl; auto. now f_equal.
    Qed.
    Lemma nomerge_parity : forall key marks, length key = length d2s -> length marks = length d2s ->
      get_split_merge_parity key (flags_from 0 (groups a)) marks = false.
    Proof.
      intros key marks Hk Hm. unfold get_split_merge_parity. rewrite nomerge_groups.
      pose proof nomerge_len as HL.
      rewrite split_merge_parity_groups.
      - apply par_false. intros [m g] HI. apply in_combine_r in HI. rewrite group_singles in HI by lia.
        apply in_map_iff in HI as [s [<- _]]. cbn [fst snd]. apply andb_false_r.
      - rewrite singles_concat. lia.
      - rewrite map_length. lia.
    Qed.
    Lemma reverse_parity_false : forall (key : list S) (A : Type) (l : list A) marks, get_reverse_parity key (map (fun _ => false) l) marks = false.
    Proof.
      induction key as [|s key IH]; intros A [|x l] [|m marks]; try reflexivity. cbn [map get_reverse_parity andb]. now rewrite IH.
    Qed.
  End Plain2.

  Lemma mark_length : forall ap ex (l : list name), length (mark ap ex l) = length l.
  Proof. intros. unfold mark. apply map_length. Qed.

  (** names that pass the same-vector test and are a permutation are equal *)
  Lemma forallb_combine_eq : forall l1 l2 : list name, length l1 = length l2 ->
    forallb (fun xy => Nat.eqb (fst xy) (snd xy)) (combine l1 l2) = true -> l1 = l2.
  Proof.
    induction l1 as [|x l1 IH]; intros [|y l2] HL H; simpl in *; try discriminate; auto.
    apply andb_prop in H as [H1 H2]. apply Nat.eqb_eq in H1. subst. f_equal. apply IH; auto.
  Qed.
  Lemma is_same_vector_perm : forall l1 l2, is_same_vector l1 l2 = true -> Permutation l1 l2 -> l1 = l2.
  Proof.
    unfold is_same_vector. intros l1 l2 H Hp. apply andb_prop in H as [HL H]. apply Nat.eqb_eq in HL.
    destruct l1 as [|x l1], l2 as [|y l2]; simpl in *; try discriminate; auto.
    apply forallb_combine_eq in H; [|lia]. subst l2. f_equal.
    change (x :: l1) with ([x] ++ l1) in Hp. change (y :: l1) with ([y] ++ l1) in Hp.
    apply Permutation_app_inv_r in Hp. apply Permutation_length_1 in Hp. auto.
  Qed.

  Lemma seq_plans : forall n, inverse_plans n (seq 0 n) (seq 0 n).
  Proof.
    intro n. unfold inverse_plans. rewrite seq_length. split; auto. split; auto.
    split; intros i Hi; rewrite !seq_nth by (try rewrite seq_nth; lia); simpl; lia.
  Qed.
  Lemma permuted_seq : forall A (d : A) l, permuted d (seq 0 (length l)) l = l.
  Proof.
    intros A d l. unfold permuted. symmetry. apply list_seq; auto. intros i Hi. now apply nth_error_nth'.
  Qed.
  Lemma invert_seq : forall n, invert_plan (seq 0 n) = seq 0 n.
  Proof.
    intro n. assert (H : inverse_plans n (invert_plan (seq 0 n)) (seq 0 n)).
    { apply invert_plan_inverse; [apply seq_length|apply seq_NoDup|]. intros x Hx. apply in_seq in Hx. lia. }
    destruct H as [L [_ [P _]]]. apply nth_ext with (d := 0) (d' := 0); [now rewrite seq_length|].
    intros i Hi. rewrite L in Hi. destruct (P i Hi) as [P1 P2]. rewrite seq_nth in P2 by auto. rewrite seq_nth by auto. auto.
  Qed.

  Definition dflt_edge : edge S := mkEdge false [].

  (** valid points of the transposed edges *)
  Lemma permuted_edges_pruned : forall (c : core S R) d2s s2d es (blocks : list (list S * list R)), wf_core c ->
    inverse_plans (length (c_edges c)) s2d d2s -> es = permuted dflt_edge d2s (c_edges c) ->
    map fst blocks = map fst (block_list (maps_of es)) -> prune_from blocks 0 es = es.
  Proof.
    intros c d2s s2d es blocks W HP -> Hb. apply prune_id. intros j e s He Hs. simpl. apply used_in_true.
    pose proof HP as [L1 [L2 [P1 P2]]].
    assert (Hj : j < length d2s). { rewrite <- (permuted_length _ dflt_edge d2s (c_edges c)). apply nth_error_Some. congruence. }
    assert (He2 : nth_error (c_edges c) (nth j d2s 0) = Some e).
    { unfold permuted in He. rewrite (map_nth_error _ _ _ (nth_error_nth' d2s 0 Hj)) in He. injection He as <-.
      apply nth_error_nth'. apply P2. lia. }
    destruct (wf_pruned _ W _ _ _ He2 Hs) as [key [Hk Hn]].
    apply in_map_iff in Hk as [[k b] [Ek Hk]]. cbn [fst] in Ek. subst k.
    apply (In_mfind _ _ _ (wf_blocks_sorted _ W)) in Hk. apply (wf_find_block _ _ _ W) in Hk as [Hz [ds [Hd _]]].
    exists (permuted szero d2s key). split.
    - rewrite Hb.
      assert (Hin : In (permuted szero d2s key, prod (permuted 0 d2s ds)) (block_list (maps_of (permuted dflt_edge d2s (c_edges c))))).
      { apply in_block_list. split.
        - apply dims_of_choice.
          + unfold sorted_maps, maps_of. apply Forall_map. apply Forall_forall. intros x Hx.
            unfold permuted in Hx. apply in_map_iff in Hx as [i [<- Hi]].
            apply (In_nth _ _ 0) in Hi as [q [Hq <-]]. pose proof (wf_maps _ W) as Wm. unfold sorted_maps, maps_of in Wm.
            rewrite Forall_map in Wm. rewrite Forall_forall in Wm. apply Wm. apply nth_In. apply P2. lia.
          + exists (permuted 0 d2s ds). split; auto.
            replace (maps_of (permuted dflt_edge d2s (c_edges c))) with (permuted [] d2s (maps_of (c_edges c))).
            * apply dims_of_permuted; auto. intros i Hi. unfold maps_of. rewrite map_length.
              apply (In_nth _ _ 0) in Hi as [q [Hq <-]]. apply P2. lia.
            * unfold maps_of. exact (permuted_map _ _ emap dflt_edge d2s (c_edges c)).
        - rewrite <- Hz. apply ssum_perm. eapply permuted_Permutation; eauto.
          apply dims_of_length in Hd as [_ ->]. unfold maps_of. now rewrite map_length. }
      apply (in_map fst) in Hin. exact Hin.
    - unfold permuted. rewrite (map_nth_error _ _ _ (nth_error_nth' d2s 0 Hj)). f_equal. now apply nth_error_nth.
  Qed.

  Variable E : @env R.

  Lemma transpose_pre : forall t target, wf_tensor t -> Permutation (t_names t) target -> eo_pre E t (no_args target).
  Proof.
    intros t target W HP. set (a := @no_args S target).
    assert (Eg : concat (groups a) = target).
    { unfold a. rewrite (nil_groups (@no_args S target) eq_refl). apply singles_concat. }
    constructor.
    - exact W.
    - intros n ps H. discriminate.
    - apply fits_keys; [exact W|]. intros n e e0 ps _ H. discriminate.
    - rewrite plain_names2; auto. apply W.
    - rewrite plain_names2; auto. now rewrite Eg.
    - eapply Permutation_NoDup; eauto. apply W.
    - intros _ H. now elim H.
    - intros _. rewrite plain_edges1; auto. induction (t_edges t); constructor; auto.
  Qed.

  (** the transposed tensor, coordinates in edge order *)
  Definition transposed (t r : tensor S R) (target : list name) (d2s : list nat) : Prop :=
    inverse_plans (length (t_names t)) (invert_plan d2s) d2s /\ target = permuted 0 d2s (t_names t) /\
    wf_tensor r /\ t_names r = target /\ t_edges r = permuted dflt_edge d2s (t_edges t) /\
    forall p, valid_pt (t_core t) p -> exists v, elem (t_core t) p = Some v /\ valid_pt (t_core r) (permuted (szero, 0) d2s p) /\
      elem (t_core r) (permuted (szero, 0) d2s p) =
        Some (sgn (if is_fermi then get_transpose_parity (map fst p) (invert_plan d2s) else false) v).

  Theorem transpose_ok : forall t target, wf_tensor t -> Permutation (t_names t) target ->
    exists r d2s, transpose E t target = Ok r /\ transposed t r target d2s.
  Proof.
    intros t target W HP. set (a := @no_args S target).
    assert (N1 : names1 t a = t_names t) by (apply plain_names1; reflexivity).
    assert (N2 : names2 t a = t_names t) by (apply plain_names2; auto).
    destruct (is_same_vector (names1 t a) (a_new_names a) && is_nil (a_split a) && is_nil (a_reversed a)
       && is_nil (a_merge a) && is_nil (a_cut a)) eqn:Fast.
    - rewrite N1 in Fast. cbn [a no_args a_split a_reversed a_merge a_cut a_new_names is_nil] in Fast. rewrite !andb_true_r in Fast.
      pose proof (is_same_vector_perm _ _ Fast HP) as Eq. subst target.
      exists t, (seq 0 (length (t_names t))). split.
      + unfold transpose, edge_operator. fold a. fold (names1 t a). rewrite N1.
        cbn [a no_args a_split a_reversed a_merge a_cut a_new_names is_nil]. rewrite Fast. cbn [andb]. now destruct t.
      + split; [rewrite invert_seq; apply seq_plans|]. split; [now rewrite permuted_seq|]. split; auto. split; auto. split.
        * rewrite (wf_rank _ W). now rewrite permuted_seq.
        * intros p Hp. destruct (valid_elem _ _ (wf_tcore _ W) Hp) as [ds [b [v [_ [_ [_ [_ [_ Hv]]]]]]]].
          assert (HL : length (t_names t) = length p).
          { rewrite (wf_rank _ W). destruct Hp as [Hp _]. apply in_range_length in Hp. rewrite Hp. unfold maps_of, t_edges. now rewrite map_length. }
          exists v. rewrite HL, permuted_seq. split; auto. split; auto. rewrite Hv. f_equal.
          replace (if is_fermi then get_transpose_parity (map fst p) (invert_plan (seq 0 (length p))) else false) with false; [reflexivity|].
          rewrite invert_seq. rewrite <- HL. destruct is_fermi; auto. symmetry.
          rewrite get_transpose_parity_par by (rewrite map_length, seq_length; auto).
          apply par_false. intros [[s1 i] [s2 j]] HI. cbn [fst snd].
          apply in_ordered_pairs in HI as [x [y [Lxy [H1 H2]]]].
          assert (HH : forall (k : nat) (s : S) i0, nth_error (combine (map fst p) (seq 0 (length (t_names t)))) k = Some (s, i0) -> i0 = k).
          { intros k s i0 Hk. assert (Hlt : k < length (combine (map fst p) (seq 0 (length (t_names t))))) by (apply nth_error_Some; congruence).
            apply nth_error_nth with (d := (szero, 0)) in Hk. rewrite combine_length, map_length, seq_length in Hlt.
            rewrite combine_nth in Hk by (rewrite map_length, seq_length; auto). injection Hk as _ Hk. rewrite seq_nth in Hk by lia. auto. }
          apply HH in H1, H2. subst. replace (y <? x) with false by (symmetry; apply Nat.ltb_ge; lia). apply andb_false_r.
    - pose proof (transpose_pre t target W HP) as Hpre. fold a in Hpre.
      destruct (edge_operator_ok E t a Hpre Fast) as [r [d2s [mr [Hr [Hpl [Hnm [Hmr [_ [Wr [Hrn [Hre [Hrb [Hv1 [Hv2 [Hel _]]]]]]]]]]]]]]].
      exists r, d2s. split; [exact Hr|].
      assert (Eg : concat (groups a) = target).
      { unfold a. rewrite (nil_groups (@no_args S target) eq_refl). apply singles_concat. }
      rewrite N2 in Hpl, Hnm. rewrite Eg in Hnm.
      assert (Hrv : rev2 t a = map (fun _ => false) (t_names t)) by (apply plain_rev2; auto).
      assert (E3 : edges3 t a = t_edges t).
      { unfold edges3. rewrite Hrv, plain_edges2; auto. pose proof (wf_rank _ W) as HL. revert HL. generalize (t_names t).
        induction (t_edges t) as [|e es IH]; intros [|n ns] HL; simpl in *; try discriminate; auto. f_equal. apply IH. lia. }
      assert (E4 : edges4 t a d2s = permuted dflt_edge d2s (t_edges t)) by (unfold edges4; now rewrite E3).
      assert (Eres : result_edges mr = permuted dflt_edge d2s (t_edges t)).
      { rewrite <- E4. eapply nomerge_result; eauto. }
      rewrite Eres in Hre, Hrb.
      split; auto. split; auto. split; auto. split; auto. split.
      + rewrite Hre. eapply permuted_edges_pruned with (c := t_core t); eauto; [apply W|]. fold (t_edges t). rewrite <- (wf_rank _ W). exact Hpl.
      + intros p Hp.
        assert (HLp : length p = length (t_edges t)).
        { destruct Hp as [Hp _]. apply in_range_length in Hp. rewrite Hp. unfold maps_of, t_edges. now rewrite map_length. }
        assert (Dst : dst_pt t a d2s p = permuted (szero, 0) d2s p).
        { apply (nomerge_dst_pt t a d2s); auto. rewrite N2. now rewrite Eg. }
        destruct Hp as [Hp1 Hp2].
        assert (Hin : in_range (concat (gms t a)) p) by (rewrite plain_concat_gms; auto).
        destruct (Hel p Hin Hp2 (plain_kept t a eq_refl _)) as [v [V1 [V2 V3]]].
        rewrite plain_src_pt in V1 by auto. rewrite Dst in V3. exists v. split; auto.
        split; [rewrite <- Dst; now apply Hv1|]. rewrite V3. do 2 f_equal.
        unfold eo_parity. destruct is_fermi; [|reflexivity]. rewrite Hrv, reverse_parity_false.
        rewrite (nomerge_flags E t a d2s eq_refl mr Hmr), reverse_parity_false.
        rewrite plain_split_parity; auto; [|rewrite map_length, (wf_rank _ W); auto|rewrite mark_length; now rewrite N1].
        assert (Hnm2 : concat (groups a) = permuted 0 d2s (names2 t a)) by (rewrite N2, Eg; exact Hnm).
        rewrite (nomerge_parity t a d2s eq_refl Hnm2).
        * now rewrite !xorb_false_l, !xorb_false_r.
        * apply permuted_length.
        * rewrite mark_length. apply (nomerge_len t a d2s eq_refl Hnm2).
  Qed.
End Plain.
