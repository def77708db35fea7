(** merge_edge: elements, edges and signs of the merged tensor. *)
From Coq Require Import String List Bool Arith Lia Sorted Permutation.
From Verif Require Import Base.Outcome Base.SMap Model.Symmetry Model.Edge Model.Core Model.Transpose Model.EdgeOperator
  Spec.Blocks Spec.Fuse Spec.Strided Spec.Sign Spec.Relabel Proof.SymmetryFacts Proof.LoopFacts Proof.CoreFacts Proof.ConstructFacts Proof.ElemFacts Proof.OffsetFacts
  Proof.KernelFacts Proof.TransposeFacts Proof.GroupFacts Proof.CopyLoopFacts Proof.TableFacts Proof.EdgeOperatorFacts Proof.EdgeOperatorMain Proof.SignFacts
  Proof.TransposeTensor Proof.TransposeNames Proof.NamedOperator Proof.MergeNames.
Import ListNotations.

Lemma pairs_in_singles : forall odd sel l, pairs_in odd sel (map (fun n => (n, [n])) l) = 0.
Proof.
  induction l as [|n l IH]; [reflexivity|]. unfold pairs_in in *. cbn [map fst snd]. unfold list_sum in *. cbn [fold_right].
  rewrite IH. unfold odd_pairs. simpl. now destruct (sel n).
Qed.
Lemma count_ext : forall A (f g : A -> bool) l, (forall x, In x l -> f x = g x) -> count f l = count g l.
Proof.
  intros A f g l H. unfold count. f_equal. induction l as [|x l IH]; [reflexivity|]. cbn [filter]. rewrite (H x) by (now left).
  rewrite IH by (intros; apply H; now right). reflexivity.
Qed.
Lemma count_perm : forall A (f : A -> bool) l1 l2, Permutation l1 l2 -> count f l1 = count f l2.
Proof.
  intros A f l1 l2 H. unfold count. induction H; cbn [filter]; auto.
  - destruct (f x); cbn [length]; auto.
  - destruct (f x), (f y); reflexivity.
  - congruence.
Qed.
Lemma combine_map_r : forall A B (f : A -> B) l, combine l (map f l) = map (fun x => (x, f x)) l.
Proof. induction l; simpl; auto. now rewrite IHl. Qed.
Lemma combine_fst_snd : forall A B (l : list (A * B)), combine (map fst l) (map snd l) = l.
Proof. induction l as [|[x y] l IH]; simpl; auto. now rewrite IH. Qed.
Lemma flat_map_concat_map2 : forall A B (f : A -> list B) l, flat_map f l = concat (map f l).
Proof. intros. apply flat_map_concat_map. Qed.

Section Merge.
  Context {S R : Type} {SS : Sym S} {SL : SymLaws S} {RR : Scalar R}.
  Notation entry := (S * nat)%type.

  (** what merge_edge needs of its arguments: the keys of a std::map are distinct, no edge is merged twice, a new name
      is not that of an edge which stays, and every group of fermionic edges has an arrow *)
  Record mergeable (E : @env R) (t : tensor S R) (merge : list (nat * list nat)) : Prop := {
    mg_keys : NoDup (map fst merge);
    mg_groups : NoDup (concat (map snd (effective (t_names t) merge)));
    mg_fresh : forall k, In k (map fst merge) -> In k (t_names t) -> In k (concat (map snd (effective (t_names t) merge)));
    mg_arrow : is_fermi = true -> env_arrow E <> None \/
      forall k l, In (k, l) (effective (t_names t) merge) -> length l = 1 \/
        exists n e, In n l /\ In (n, e) (combine (t_names t) (t_edges t)) /\ arrow_valid e = true }.

  Variables (E : @env R) (t : tensor S R) (merge : list (nat * list nat)) (ap : bool) (exm exr : list nat).
  Hypothesis Hwf : wf_tensor t.
  Hypothesis Hm : mergeable E t merge.

  Definition mM := effective (t_names t) merge.
  Definition mtarget := merged_names (t_names t) mM.
  Definition margs : @eo_args S := mkArgs [] [] [] mM mtarget ap [] [] exr exm [].
  Definition mlegs : list (nat * edge S) := combine (t_names t) (t_edges t).

  Lemma merge_edge_eq : merge_edge E t merge ap exm exr = edge_operator E t margs.
  Proof. unfold merge_edge. rewrite drop_absent_effective, merge_target_names. reflexivity. Qed.
  Lemma mkeys : NoDup (map fst mM).
  Proof. unfold mM. rewrite effective_keys. apply Hm. Qed.
  Lemma mfresh : forall k, In k (map fst mM) -> In k (t_names t) -> In k (concat (map snd mM)).
  Proof. intros k H. unfold mM in H. rewrite effective_keys in H. now apply Hm. Qed.
  Lemma mincl : incl (concat (map snd mM)) (t_names t).
  Proof. apply effective_incl. Qed.
  Lemma mgroups_eq : groups margs = map (group_of mM) mtarget.
  Proof. reflexivity. Qed.
  Lemma mflat : concat (groups margs) = flat_map (group_of mM) mtarget.
  Proof. rewrite mgroups_eq. symmetry. apply flat_map_concat_map. Qed.
  Lemma mperm : Permutation (t_names t) (concat (groups margs)).
  Proof. rewrite mflat. apply merged_groups_perm; [apply Hwf|apply mkeys|apply Hm|apply mincl|apply mfresh]. Qed.
  Lemma mtarget_NoDup : NoDup mtarget.
  Proof. apply merged_names_NoDup; [apply Hwf|apply mkeys|apply Hm|apply mfresh]. Qed.
  Lemma mnames2 : names2 t margs = t_names t.
  Proof. now apply plain_names2. Qed.
  Lemma msgroups : sgroups t margs = map (fun x => [x]) mlegs.
  Proof. exact (plain_sgroups t margs Hwf eq_refl eq_refl eq_refl). Qed.
  Lemma mlegs_eq : legs t margs = mlegs.
  Proof. unfold legs. rewrite msgroups. apply singles_concat. Qed.
  Lemma medges2 : edges2 t margs = t_edges t.
  Proof.
    unfold edges2. rewrite msgroups, singles_concat. apply combine_map_snd. apply Hwf.
  Qed.
  Lemma medges3 : edges3 t margs = t_edges t.
  Proof.
    unfold edges3. rewrite medges2. unfold rev2. rewrite mnames2.
    pose proof (wf_rank _ Hwf) as HL. revert HL. generalize (t_edges t). clear. intro es. revert es.
    induction (t_names t) as [|n ns IH]; intros [|e es] HL; simpl in *; try discriminate; auto. specialize (IH es ltac:(lia)). rewrite andb_false_r in *. f_equal. exact IH.
  Qed.
  Lemma mlegs3_eq : legs3 t margs = mlegs.
  Proof. unfold legs3. rewrite mnames2, medges3. reflexivity. Qed.

  Lemma merge_pre : eo_pre E t margs.
  Proof.
    constructor.
    - exact Hwf.
    - cbn [a_split margs mfind]. discriminate.
    - apply fits_keys; [exact Hwf|]. cbn [a_split margs mfind]. discriminate.
    - rewrite mnames2. apply Hwf.
    - rewrite mnames2. apply mperm.
    - apply mtarget_NoDup.
    - intros F _. destruct (mg_arrow _ _ _ Hm F) as [H|H]; [now left|right]. intros l Hl. rewrite mgroups_eq in Hl.
      apply in_map_iff in Hl as [z [<- Hz]]. pose proof (target_cases (t_names t) mM mkeys (mg_groups _ _ _ Hm) mincl z Hz) as Hz'.
      destruct Hz' as [[l [H1 ->]]|[_ [_ [_ ->]]]]; [|now left]. destruct (H z l H1) as [H2|[n [e [A [B C]]]]]; [now left|right].
      exists n, e. split; auto. split; auto. fold (legs t margs). rewrite mlegs_eq. exact B.
    - intros _. rewrite (plain_edges1 t margs Hwf eq_refl). apply Forall2_same. auto.
  Qed.
  Lemma merge_nonempty : merge <> [] -> is_nil (a_merge margs) = false.
  Proof. intro H. unfold margs, mM, effective. cbn [a_merge]. destruct merge; [congruence|reflexivity]. Qed.

  Lemma mkept : forall key, kept t margs key = true.
  Proof. apply plain_kept. reflexivity. Qed.
  Lemma msrc_coord : forall pos n, src_coord t margs pos n = coord pos n.
  Proof. reflexivity. Qed.

  Lemma merge_sign_eq : forall pos, Nat.odd (sign_number t margs pos) = Nat.odd (merge_sign mlegs (t_names t) mM ap exm exr pos).
  Proof.
    intro pos. unfold sign_number, merge_sign. fold mtarget.
    rewrite mnames2. cbn [a_reversed margs a_apply_parity a_ex_split a_ex_rev_merge a_ex_merge].
    rewrite (count_zero _ (fun n => mem_name n [] && _ && _)) by reflexivity.
    replace (split_groups t margs) with (map (fun n => (n, [n])) (t_names t)) by reflexivity. rewrite pairs_in_singles. cbn [plus].
    rewrite !Nat.odd_add.
    assert (Hg : map snd (merge_groups_named margs) = groups margs).
    { unfold merge_groups_named. apply combine_map_snd. rewrite mgroups_eq, map_length. reflexivity. }
    rewrite pairs_in_reversal by (rewrite Hg; apply (groups_NoDup E t margs merge_pre)).
    rewrite Hg.
    rewrite <- xorb_assoc. rewrite (xorb_comm (Nat.odd (exchanged_odd (leg_odd pos) (t_names t) _))). rewrite xorb_assoc, xorb_comm.
    rewrite <- (exchanged_compose (leg_odd pos) (t_names t) (concat (groups margs))).
    - f_equal.
      + f_equal. f_equal. unfold merge_groups_named. rewrite mgroups_eq. cbn [a_new_names margs]. rewrite combine_map_r, map_map, flat_map_concat_map. reflexivity.
      + f_equal. rewrite (count_perm _ _ _ _ (Permutation_sym mperm)). apply count_ext. intros n _. unfold fixed_leg, turned. rewrite mlegs3_eq, mgroups_eq. reflexivity.
    - apply Hwf.
    - apply mperm.
    - rewrite <- Hg at 1. clear. induction (merge_groups_named margs) as [|[k l] gs IH]; [constructor|]. cbn [map concat fst snd].
      apply Permutation_app; auto. destruct (selected ap exm k); [apply Permutation_rev|reflexivity].
  Qed.

  Lemma signed_odd : forall n m (v : R), Nat.odd n = Nat.odd m -> signed ropp n v = signed ropp m v.
  Proof. intros n m v H. unfold signed. now rewrite H. Qed.

  Lemma assigns_in_range : forall pos p, assigns pos (t_names t) p -> in_range (maps_of (t_edges t)) p <->
    (forall n, In n (t_names t) -> exists d, In (fst (coord pos n), d) (emap (edge_named mlegs n)) /\ snd (coord pos n) < d).
  Proof.
    intros pos p Ha. rewrite (assigns_coord pos _ p Ha).
    replace (maps_of (t_edges t)) with (map (fun n => emap (edge_named mlegs n)) (t_names t)); [apply in_range_named|].
    rewrite <- mlegs_eq, <- mnames2. rewrite (legs_maps E t margs merge_pre), flat_maps, medges2. reflexivity.
  Qed.

  (** the merged tensor, with the unpruned edges *)
  Lemma merge_raw : merge <> [] -> exists r re,
    merge_edge E t merge ap exm exr = Ok r /\ wf_tensor r /\ t_names r = mtarget /\
    Forall2 (group_edge E t margs) (map (group_of mM) mtarget) re /\
    t_edges r = prune_from (t_blocks r) 0 re /\
    map fst (t_blocks r) = map fst (block_list (maps_of re)) /\
    (forall pos pt, assigns pos (t_names t) pt -> valid_pt (t_core t) pt ->
      let x := map (merged_coord mlegs mM pos) mtarget in
      valid_pt (t_core r) x /\ exists v, elem (t_core t) pt = Some v /\
        elem (t_core r) x = Some (signed ropp (merge_sign mlegs (t_names t) mM ap exm exr pos) v)) /\
    (forall x, valid_pt (t_core r) x -> exists pos pt, assigns pos (t_names t) pt /\ valid_pt (t_core t) pt /\
       x = map (merged_coord mlegs mM pos) mtarget) /\
    (forall pos1 pos2 p1 p2, assigns pos1 (t_names t) p1 -> assigns pos2 (t_names t) p2 -> valid_pt (t_core t) p1 -> valid_pt (t_core t) p2 ->
       map (merged_coord mlegs mM pos1) mtarget = map (merged_coord mlegs mM pos2) mtarget -> p1 = p2).
  Proof.
    intro Hne. destruct (edge_operator_named E t margs merge_pre eq_refl) as [r [re [H1 [H2 [H3 [H4 [H5 [H6 [H7 [H8 H9]]]]]]]]]].
    { rewrite (merge_nonempty Hne). now rewrite !andb_false_r. }
    rewrite mnames2, medges2, mlegs_eq in *.
    exists r, re. split; [now rewrite merge_edge_eq|]. split; [exact H2|]. split; [exact H3|]. split; [exact H4|]. split; [exact H5|]. split; [exact H6|].
    split; [|split].
    - intros pos pt Ha [Hr Hz]. destruct (H7 pos pt Ha Hr Hz) as [A [B _]]. split; [exact A|].
      destruct (B (mkept _)) as [v [V1 [_ V2]]].
      assert (Es : map (src_coord t margs pos) (t_names t) = pt) by (symmetry; exact (assigns_coord pos _ pt Ha)).
      rewrite Es in V1. exists v. split; [exact V1|].
      etransitivity; [exact V2|]. f_equal. apply signed_odd. apply merge_sign_eq.
    - intros x Hx. destruct (H8 x Hx) as [pos [p [A [B [C D]]]]]. exists pos, p. split; auto. split; [split; auto|exact D].
    - intros pos1 pos2 p1 p2 A1 A2 [R1 _] [R2 _] Eq. exact (H9 pos1 pos2 p1 p2 A1 A2 R1 R2 Eq).
  Qed.
End Merge.
