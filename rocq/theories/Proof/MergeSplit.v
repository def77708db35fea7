(** merge_edge by names, for all groupings. *)
From Coq Require Import String List Bool Arith Lia Sorted Permutation.
From Verif Require Import Base.Outcome Base.SMap Model.Symmetry Model.Edge Model.Core Model.Transpose Model.EdgeOperator
  Spec.Blocks Spec.Fuse Spec.Strided Spec.Sign Spec.Relabel Proof.SymmetryFacts Proof.LoopFacts Proof.CoreFacts Proof.ConstructFacts Proof.ElemFacts Proof.OffsetFacts
  Proof.KernelFacts Proof.TransposeFacts Proof.GroupFacts Proof.CopyLoopFacts Proof.TableFacts Proof.EdgeOperatorFacts Proof.EdgeOperatorMain Proof.SignFacts
  Proof.TransposeTensor Proof.TransposeNames Proof.NamedOperator Proof.MergeNames Proof.MergeFacts.
Import ListNotations.

Lemma Forall2_combine_in : forall A B (P : A -> B -> Prop) l1 l2 x y, Forall2 P l1 l2 -> In (x, y) (combine l1 l2) -> P x y.
Proof. intros A B P l1 l2 x y H. induction H; simpl; intros HI; [contradiction|]. destruct HI as [HI|HI]; [congruence|auto]. Qed.
Lemma Forall2_trans_ex : forall A B C (P : A -> B -> Prop) (Q : B -> C -> Prop) l1 l2 l3, Forall2 P l1 l2 -> Forall2 Q l2 l3 ->
  Forall2 (fun x z => exists y, P x y /\ Q y z) l1 l3.
Proof. intros A B C P Q l1 l2 l3 H. revert l3. induction H; intros l3 HQ; inversion HQ; subst; constructor; eauto. Qed.

Section MergeAll.
  Context {S R : Type} {SS : Sym S} {SL : SymLaws S} {RR : Scalar R}.
  Notation entry := (S * nat)%type.

  Lemma effective_nil : forall names, effective names [] = [].
  Proof. reflexivity. Qed.
  Lemma flat_map_single : forall A (l : list A), flat_map (fun n => [n]) l = l.
  Proof. induction l; simpl; congruence. Qed.
  Lemma merged_names_nil : forall names, merged_names names [] = names.
  Proof. intro names. unfold merged_names. cbn [filter map rev app find]. apply flat_map_single. Qed.
  Lemma is_same_vector_refl : forall l, is_same_vector l l = true.
  Proof.
    intro l. unfold is_same_vector. rewrite Nat.eqb_refl. simpl. apply forallb_forall. intros [x y] HI.
    apply Nat.eqb_eq. cbn [fst snd]. induction (tl l) as [|z l' IH]; [contradiction|].
    destruct HI as [HI|HI]; [congruence|auto].
  Qed.
  Lemma merge_nil_id : forall (E : @env R) (t : tensor S R) ap exm exr, merge_edge E t [] ap exm exr = Ok t.
  Proof.
    intros. unfold merge_edge. rewrite drop_absent_effective, effective_nil, merge_target_names, merged_names_nil.
    unfold edge_operator. cbn [a_rename a_split a_reversed a_merge a_cut a_new_names is_nil].
    assert (Hid : map (rename_one []) (t_names t) = t_names t) by apply map_id. rewrite Hid, is_same_vector_refl. now destruct t.
  Qed.
  Lemma combine_legs : forall (t : tensor S R) n e, wf_tensor t -> In (n, e) (combine (t_names t) (t_edges t)) ->
    edge_named (combine (t_names t) (t_edges t)) n = e.
  Proof.
    intros t n e W H. unfold edge_named. rewrite (In_mfind_nodup _ n e); auto. rewrite combine_map_fst; [apply W|apply W].
  Qed.
  Lemma exchanged_same : forall odd l, NoDup l -> exchanged_odd odd l l = 0.
  Proof. intros. now apply exchanged_self. Qed.
  Lemma turned_singles : forall (legs : list (nat * edge S)) l n, turned legs (map (fun n => [n]) l) n = false.
  Proof.
    intros legs l n. unfold turned. induction l as [|m l IH]; [reflexivity|]. cbn [map existsb]. rewrite IH, orb_false_r.
    destruct (member n [m]) eqn:E1; [|reflexivity]. apply member_In in E1 as [->|[]]. cbn [andb map]. apply against_single.
  Qed.

  (** the edge of a merged tensor *)
  Record merged_edge (E : @env R) (t : tensor S R) (l : list nat) (e : edge S) : Prop := {
    me_dim : forall s d, In (s, d) (emap e) ->
      d = merged_dim (map (fun n => emap (edge_named (combine (t_names t) (t_edges t)) n)) l) s;
    me_one : forall n, l = [n] -> earrow e = earrow (edge_named (combine (t_names t) (t_edges t)) n);
    me_bose : length l <> 1 -> is_fermi = false -> earrow e = false;
    me_fermi : length l <> 1 -> is_fermi = true -> Some (earrow e) =
      match first_arrow (map (edge_named (combine (t_names t) (t_edges t))) l) with Some b => Some b | None => env_arrow E end }.

  Theorem merge_named : forall (E : @env R) (t : tensor S R) merge ap exm exr,
    wf_tensor t -> mergeable E t merge ->
    let legs := combine (t_names t) (t_edges t) in
    let M := effective (t_names t) merge in
    let target := merged_names (t_names t) M in
    let image := fun pos => map (fun n => (n, merged_coord legs M pos n)) target in
    exists r, merge_edge E t merge ap exm exr = Ok r /\ wf_tensor r /\ t_names r = target /\
      (forall n e, In (n, e) (combine target (t_edges r)) -> merged_edge E t (group_of M n) e) /\
      (forall pos pt, assigns pos (t_names t) pt -> valid_pt (t_core t) pt ->
         exists v, const_at t pos = Ok v /\
           valid_pt (t_core r) (map snd (image pos)) /\
           const_at r (image pos) = Ok (signed ropp (merge_sign legs (t_names t) M ap exm exr pos) v)) /\
      (forall x, valid_pt (t_core r) x ->
         exists pos pt, assigns pos (t_names t) pt /\ valid_pt (t_core t) pt /\ x = map snd (image pos)) /\
      (forall pos1 pos2 p1 p2, assigns pos1 (t_names t) p1 -> assigns pos2 (t_names t) p2 ->
         valid_pt (t_core t) p1 -> valid_pt (t_core t) p2 -> image pos1 = image pos2 -> p1 = p2).
  Proof.
    intros E t merge ap exm exr W Hm legs M target image.
    assert (Hi1 : forall pos, map snd (image pos) = map (merged_coord legs M pos) target) by (intro; unfold image; rewrite map_map; reflexivity).
    assert (Hi2 : forall pos, map fst (image pos) = target) by (intro; unfold image; rewrite map_map; apply map_id).
    assert (Hnd : NoDup target) by (apply (mtarget_NoDup E t merge W Hm)).
    assert (HA : forall pos, assigns (image pos) target (map snd (image pos))).
    { intro pos. rewrite Hi1. replace (image pos) with (combine target (map (merged_coord legs M pos) target)) by apply combine_map_r.
      apply assigns_combine; [exact Hnd|now rewrite map_length]. }
    destruct merge as [|kl merge'].
    - assert (HM : M = []) by reflexivity. assert (HT : target = t_names t) by apply merged_names_nil.
      assert (Hc : forall pos, map snd (image pos) = map (coord pos) (t_names t)) by (intro pos; rewrite Hi1, HT, HM; reflexivity).
      exists t. split; [apply merge_nil_id|]. split; [exact W|]. split; [auto|]. split; [|split; [|split]].
      + intros n e He. rewrite HM. cbn [group_of mfind]. rewrite HT in He. pose proof (combine_legs t n e W He) as En.
        constructor.
        * intros s d Hd. cbn [map]. rewrite En. symmetry.
          assert (Hs : msorted (emap e)).
          { apply in_combine_r in He. pose proof (wf_maps _ (wf_tcore _ W)) as Wm. unfold sorted_maps, maps_of in Wm. rewrite Forall_map in Wm.
            rewrite Forall_forall in Wm. now apply Wm. }
          apply merged_dim_one; auto. now apply In_mfind.
        * intros m Em. injection Em as <-. now rewrite En.
        * cbn [length]. congruence.
        * cbn [length]. congruence.
      + intros pos pt Ha Hv. destruct (const_at_elem t pos pt W Ha Hv) as [v [E1 E2]]. exists v. split; auto.
        assert (Hx : map snd (image pos) = pt) by (rewrite Hc; symmetry; now apply assigns_coord). rewrite Hx. split; [exact Hv|].
        assert (Hs : Nat.odd (merge_sign legs (t_names t) M ap exm exr pos) = false).
        { unfold merge_sign. fold target. rewrite HM, HT.
          rewrite count_zero.
          - replace (flat_map _ (t_names t)) with (t_names t); [now rewrite exchanged_same by apply W|].
            rewrite <- (flat_map_single _ (t_names t)) at 1. apply flat_map_ext. intro n. cbn [group_of mfind]. now destruct (applied ap exm n).
          - intro n. replace (map (group_of []) (t_names t)) with (map (fun n => [n]) (t_names t)) by reflexivity.
            now rewrite turned_singles. }
        unfold signed. rewrite Hs. 
        destruct (const_at_elem t (image pos) pt W) as [v' [F1 F2]]; [rewrite <- HT, <- Hx; apply HA|exact Hv|].
        rewrite E1 in F1. injection F1 as <-. exact F2.
      + intros x Hx. exists (combine (t_names t) x), x.
        assert (HL : length (t_names t) = length x).
        { rewrite (wf_rank _ W). destruct Hx as [Hx _]. apply in_range_length in Hx. rewrite Hx. unfold maps_of, t_edges. now rewrite map_length. }
        assert (Ha : assigns (combine (t_names t) x) (t_names t) x) by (apply assigns_combine; [apply W|exact HL]).
        split; [exact Ha|]. split; [exact Hx|]. rewrite Hc. now apply assigns_coord.
      + intros pos1 pos2 p1 p2 A1 A2 _ _ Eq. apply (f_equal (map snd)) in Eq. rewrite !Hc in Eq.
        now rewrite (assigns_coord _ _ _ A1), (assigns_coord _ _ _ A2).
    - destruct (merge_raw E t (kl :: merge') ap exm exr W Hm) as [r [re [H1 [H2 [H3 [H4 [H5 [H6 [H7 [H8 H9]]]]]]]]]]; [discriminate|].
      change (mM t (kl :: merge')) with M in *. change (mlegs t) with legs in *. fold target in H3, H4, H7, H8, H9.
      change (mtarget t (kl :: merge')) with target in *.
      exists r. split; [exact H1|]. split; [exact H2|]. split; [exact H3|]. split; [|split; [|split]].
      + apply Forall2_map_l_inv in H4. pose proof (pruned_edges (t_blocks r) re 0) as HP. rewrite <- H5 in HP.
        pose proof (Forall2_trans_ex _ _ _ _ _ _ _ _ H4 HP) as HF. intros n e He.
        destruct (Forall2_combine_in _ _ _ _ _ _ _ HF He) as [e0 [G [Ha Hf]]].
        assert (EL : NamedOperator.legs t (margs t (kl :: merge') ap exm exr) = legs) by (apply mlegs_eq; auto).
        assert (EL3 : legs3 t (margs t (kl :: merge') ap exm exr) = legs) by (apply mlegs3_eq; auto).
        destruct G as [G1 G2 G3 G4]. rewrite EL in G1. rewrite EL3 in G2, G4.
        constructor.
        * intros s d Hd.
          assert (Hs : msorted (emap e)).
          { apply in_combine_r in He. pose proof (wf_maps _ (wf_tcore _ H2)) as Wm. unfold sorted_maps, maps_of in Wm. rewrite Forall_map in Wm.
            rewrite Forall_forall in Wm. now apply Wm. }
          apply (In_mfind _ _ _ Hs) in Hd. apply Hf in Hd. destruct G1 as [_ G1]. rewrite G1 in Hd.
          destruct (existsb _ _); [|discriminate]. now injection Hd as <-.
        * intros m Em. rewrite Ha, (G2 m Em). reflexivity.
        * intros L F. rewrite Ha. now apply G3.
        * intros L F. rewrite Ha. now apply G4.
      + intros pos pt Ha Hv. destruct (H7 pos pt Ha Hv) as [V1 [v [V2 V3]]]. exists v.
        destruct (const_at_elem t pos pt W Ha Hv) as [v' [E1 E2]]. rewrite V2 in E1. injection E1 as <-. split; [exact E2|].
        rewrite Hi1. split; [exact V1|].
        destruct (const_at_elem r (image pos) (map snd (image pos)) H2) as [w [F1 F2]].
        * rewrite H3. apply HA.
        * rewrite Hi1. exact V1.
        * rewrite Hi1, V3 in F1. injection F1 as <-. exact F2.
      + intros x Hx. destruct (H8 x Hx) as [pos [pt [A [B C]]]]. exists pos, pt. split; auto. split; auto. now rewrite Hi1.
      + intros pos1 pos2 p1 p2 A1 A2 V1 V2 Eq. apply (H9 pos1 pos2 p1 p2 A1 A2 V1 V2). rewrite <- !Hi1. now rewrite Eq.
  Qed.
  Theorem merge_signed : forall (E : @env R) (t : tensor S R) merge ap exm exr,
    wf_tensor t -> mergeable E t merge ->
    let legs := combine (t_names t) (t_edges t) in
    let M := effective (t_names t) merge in
    let target := merged_names (t_names t) M in
    exists r, merge_edge E t merge ap exm exr = Ok r /\
      forall pos pt, assigns pos (t_names t) pt -> valid_pt (t_core t) pt -> exists v, const_at t pos = Ok v /\
        const_at r (map (fun n => (n, merged_coord legs M pos n)) target) = Ok (signed ropp
          (exchanged_odd (leg_odd pos) (t_names t)
             (flat_map (fun n => if applied ap exm n then rev (group_of M n) else group_of M n) target) +
           count (fun n => turned legs (map (group_of M) target) n && applied ap exr n && leg_odd pos n) (t_names t)) v).
  Proof.
    intros E t merge ap exm exr W M. destruct (merge_named E t merge ap exm exr W M) as [r [H1 [_ [_ [_ [H _]]]]]].
    exists r. split; [exact H1|]. intros pos pt Ha Hv. destruct (H pos pt Ha Hv) as [v [V1 [_ V3]]]. exists v. exact (conj V1 V3).
  Qed.
  Theorem fuse_bijective : forall maps : list (list entry), sorted_maps maps ->
    (forall pt, in_range maps pt -> fst (fuse maps pt) = ssum (map fst pt) /\ snd (fuse maps pt) < merged_dim maps (ssum (map fst pt))) /\
    (forall p1 p2, in_range maps p1 -> in_range maps p2 -> fuse maps p1 = fuse maps p2 -> p1 = p2) /\
    (forall s n, n < merged_dim maps s -> exists pt, in_range maps pt /\ fuse maps pt = (s, n)).
  Proof.
    intros maps Hs. split; [|split].
    - intros pt H. split; [reflexivity|now apply fuse_bound].
    - intros p1 p2 H1 H2. now apply fuse_injective.
    - intros s n H. now apply fuse_surjective.
  Qed.
End MergeAll.
