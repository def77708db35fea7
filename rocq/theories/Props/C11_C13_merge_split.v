(** C11: signs of merging, splitting and reversing.  C12: merging relabels the elements one to one.
    C13: splitting undoes merging.

    Vocabulary (Spec/Relabel.v, Spec/Fuse.v): [effective names merge]: the groups without unknown names;
    [merged_names]: the names of the result; [group_of M n]: the legs that leg n of the result stands for;
    [merged_coord]: the coordinate of a leg of the result, [fuse] of the coordinates of its legs; [signed opp n v] = (-1)^n v;
    [applied]: the sign option selects this edge; [count]: number of names passing a test. *)
From Coq Require Import String List Bool Arith ZArith Permutation.
From Verif Require Import Base.Outcome Base.SMap Model.Symmetry Model.Edge Model.Core Model.EdgeOperator
  Spec.Blocks Spec.Fuse Spec.Sign Spec.Relabel Proof.SymmetryFacts Proof.CoreFacts Proof.ElemFacts Proof.ConstructFacts Proof.SignFacts
  Proof.EdgeOperatorFacts Proof.MergeNames Proof.MergeFacts Proof.MergeSplit Proof.SplitMerged Proof.SplitFacts Proof.SplitNamed Proof.ScalarZ Proof.ExTensors.
Import ListNotations.

(** ** C11 *)
(** pairs of odd legs in the selected groups = sign of reversing the selected groups *)
Theorem C11_group_sign_is_reversal :
  forall odd sel (gs : list (nat * list nat)), NoDup (concat (map snd gs)) ->
  Nat.odd (pairs_in odd sel gs) =
  Nat.odd (exchanged_odd odd (concat (map snd gs)) (concat (map (fun nl => if sel (fst nl) : bool then rev (snd nl) else snd nl) gs))).
Proof. exact pairs_in_reversal. Qed.
Print Assumptions C11_group_sign_is_reversal.

(** merging: exchanging the legs into the order of the groups, those with applied sign backwards; turned legs count one each *)
Theorem C11_merge_sign :
  forall (S R : Type) (SS : Sym S) (SL : SymLaws S) (RR : Scalar R) (E : env) (t : tensor S R) merge ap exm exr,
  wf_tensor t -> mergeable E t merge ->
  let legs := combine (t_names t) (t_edges t) in
  let M := effective (t_names t) merge in
  let target := merged_names (t_names t) M in
  exists r, merge_edge E t merge ap exm exr = Ok r /\
    forall pos pt, assigns pos (t_names t) pt -> valid_pt (t_core t) pt -> exists v, const_at t pos = Ok v /\
      const_at r (map (fun n => (n, merged_coord legs M pos n)) target) = Ok (signed ropp
        (exchanged_odd (leg_odd pos) (t_names t)
           (flat_map (fun n => if applied ap exm n then rev (group_of M n) else group_of M n) target) +
         count (fun n => turned legs (map (group_of M) target) n && applied ap exr n && leg_odd pos n) (t_names t)) v).
Proof. exact @merge_signed. Qed.
Print Assumptions C11_merge_sign.

(** splitting: one for each pair of odd parts of a split leg with applied sign *)
Theorem C11_split_sign :
  forall (S R : Type) (SS : Sym S) (SL : SymLaws S) (RR : Scalar R) (E : env) (t : tensor S R) split ap ex,
  wf_tensor t -> splittable t split ->
  let legs := combine (t_names t) (t_edges t) in
  exists r, split_edge E t split ap ex = Ok r /\ wf_tensor r /\ t_names r = map fst (split_legs split legs) /\
    forall pos p, assigns pos (map fst (split_legs split legs)) p -> in_range (maps_of (map snd (split_legs split legs))) p ->
      ssum (map fst p) = szero ->
      let image := map (fun n => (n, unsplit_coord split legs pos n)) (t_names t) in
      valid_pt (t_core r) p /\
      (totals_present split legs pos = true -> exists v, const_at t image = Ok v /\
         const_at r pos = Ok (signed ropp (pairs_in (leg_odd pos) (applied ap ex) (map (fun n => (n, part_names split n)) (t_names t))) v)) /\
      (totals_present split legs pos = false -> is_nosym = false -> const_at r pos = Ok rzero).
Proof. exact @split_named. Qed.
Print Assumptions C11_split_sign.

(** reversing: one for each odd reversed edge with applied sign *)
Theorem C11_reverse_sign :
  forall (S R : Type) (SS : Sym S) (SL : SymLaws S) (RR : Scalar R) (E : env) (t : tensor S R) rev ap ex, wf_tensor t ->
  exists r, reverse_edge E t rev ap ex = Ok r /\ wf_tensor r /\ t_names r = t_names t /\
    t_edges r = map (fun ne => if is_fermi && member (fst ne) rev then flip (snd ne) else snd ne) (combine (t_names t) (t_edges t)) /\
    forall pos pt, assigns pos (t_names t) pt -> valid_pt (t_core t) pt -> exists v, const_at t pos = Ok v /\ valid_pt (t_core r) pt /\
      const_at r pos = Ok (signed ropp (count (fun n => member n rev && applied ap ex n && leg_odd pos n) (t_names t)) v).
Proof. exact @reverse_named. Qed.
Print Assumptions C11_reverse_sign.

Theorem C11_reverse_twice :
  forall (S R : Type) (SS : Sym S) (SL : SymLaws S) (RR : Scalar R) (E E' : env) (t : tensor S R) rev ap ex,
  (forall v : R, ropp (ropp v) = v) -> wf_tensor t ->
  bind (reverse_edge E t rev ap ex) (fun r => reverse_edge E' r rev ap ex) = Ok t.
Proof. exact @reverse_twice. Qed.
Print Assumptions C11_reverse_twice.

(** four odd legs of a fermionic tensor, arrows out, out, in, out *)
Definition ex_f4 : tensor fermi16 Z := range_tensor [1; 2; 3; 4]
  (let m := [(to_fermi (-1), 1); (to_fermi 0, 1); (to_fermi 1, 2)] in [mkEdge false m; mkEdge false m; mkEdge true m; mkEdge false m]).
Definition ex_pos4 : list (nat * (fermi16 * nat)) := [(1, (to_fermi 1, 1)); (2, (to_fermi (-1), 0)); (3, (to_fermi 1, 1)); (4, (to_fermi (-1), 0))].
Definition ex_groups : list (nat * list nat) := [(8, [3; 1; 9]); (7, [])].
Lemma ex_f4_wf : wf_tensor ex_f4.
Proof. now apply range_wf. Qed.
Definition exA : @env Z := mkEnv 77%Z (Some true) false (fun _ => false).
(** names [1;2;3;4], groups 8 = {3,1} (9 is unknown) and 7 = {}: result [7;8;2;4] *)
Lemma ex_f4_mergeable : mergeable exA ex_f4 ex_groups.
Proof.
  constructor.
  - now apply has_dup_false.
  - now apply has_dup_false.
  - intros k [<-|[<-|[]]] H; exfalso; cbv in H; intuition discriminate.
  - intros _. left. discriminate.
Qed.
Definition ex_image (t : tensor fermi16 Z) (groups : list (nat * list nat)) (pos : list (nat * (fermi16 * nat))) :=
  let M := effective (t_names t) groups in
  map (fun n => (n, merged_coord (combine (t_names t) (t_edges t)) M pos n)) (merged_names (t_names t) M).
(** legs [1;2;3;4] all odd, order of the groups [3;1;2;4]: two pairs exchanged; group 8 backwards: one pair less;
    leg 1 turned to the arrow of leg 3: one more *)
Example C11_merge_example :
  wf_tensor ex_f4 /\ mergeable exA ex_f4 ex_groups /\ const_at ex_f4 ex_pos4 = Ok 41%Z /\
  merged_names [1; 2; 3; 4] (effective [1; 2; 3; 4] ex_groups) = [7; 8; 2; 4] /\
  bind (merge_edge exA ex_f4 ex_groups false [] []) (fun r => const_at r (ex_image ex_f4 ex_groups ex_pos4)) = Ok 41%Z /\
  bind (merge_edge exA ex_f4 ex_groups false [8] []) (fun r => const_at r (ex_image ex_f4 ex_groups ex_pos4)) = Ok (-41)%Z /\
  bind (merge_edge exA ex_f4 ex_groups false [8] [1]) (fun r => const_at r (ex_image ex_f4 ex_groups ex_pos4)) = Ok 41%Z /\
  bind (merge_edge exA ex_f4 ex_groups true [] []) (fun r => const_at r (ex_image ex_f4 ex_groups ex_pos4)) = Ok 41%Z.
Proof. split; [exact ex_f4_wf|]. split; [exact ex_f4_mergeable|]. repeat split; vm_compute; reflexivity. Qed.

Example C11_reverse_example :
  bind (reverse_edge exE ex_f4 [1; 3; 4] true [3]) (fun r => const_at r ex_pos4) = Ok 41%Z /\
  bind (reverse_edge exE ex_f4 [1; 3; 4] false [3]) (fun r => const_at r ex_pos4) = Ok (-41)%Z /\
  bind (reverse_edge exE ex_f4 [1; 3; 4] true []) (fun r => bind (reverse_edge exE r [1; 3; 4] true []) (fun r => const_at r ex_pos4)) = Ok 41%Z.
Proof. repeat split; vm_compute; reflexivity. Qed.

(** a fermionic matrix whose first leg is split into three parts *)
Definition ex_f2 : tensor fermi16 Z := range_tensor [1; 2]
  [mkEdge true [(to_fermi 1, 3); (to_fermi 2, 3); (to_fermi 3, 2)]; mkEdge false [(to_fermi (-3), 2); (to_fermi (-2), 1)]].
Definition ex_split : list (nat * list (nat * edge fermi16)) :=
  let p := mkEdge false [(to_fermi 0, 1); (to_fermi 1, 1)] in [(1, [(5, p); (6, p); (7, p)]); (9, [])].
Example C11_split_example : wf_tensor ex_f2 /\ splittable ex_f2 ex_split /\
  let pos b := [(5, (to_fermi 1, 0)); (6, (to_fermi b, 0)); (7, (to_fermi 1, 0)); (2, (to_fermi (-2 - b), 0))] in
  bind (split_edge exE ex_f2 ex_split true []) (fun r => const_at r (pos 0%Z)) = Ok (-2)%Z /\
  bind (split_edge exE ex_f2 ex_split false []) (fun r => const_at r (pos 0%Z)) = Ok 2%Z /\
  bind (split_edge exE ex_f2 ex_split true []) (fun r => const_at r (pos 1%Z)) = Ok (-4)%Z.
Proof.
  split; [now apply range_wf|]. split; [|repeat split; vm_compute; reflexivity]. constructor.
  - intros n ps [<-|[<-|[]]] H; try discriminate. injection H as <-. repeat constructor.
  - intros n e [H|[H|[]]] H2; injection H as <- <-; discriminate.
  - intros n e ps s [H|[H|[]]] H2; injection H as <- <-; try discriminate. injection H2 as <-. intros _ [L|L]; [discriminate L|].
    unfold mmem in L. destruct (mfind s _) as [d|] eqn:Ed; [|discriminate]. exists d. split; [reflexivity|].
    apply mfind_In in Ed. destruct Ed as [Ed|[Ed|[]]]; injection Ed as <- <-; apply Nat.leb_le; vm_compute; reflexivity.
  - now apply has_dup_false.
Qed.

(** ** C12 *)
Theorem C12_merge_relabels :
  forall (S R : Type) (SS : Sym S) (SL : SymLaws S) (RR : Scalar R) (E : env) (t : tensor S R) merge ap exm exr,
  wf_tensor t -> mergeable E t merge ->
  let legs := combine (t_names t) (t_edges t) in
  let M := effective (t_names t) merge in
  let target := merged_names (t_names t) M in
  let image := fun pos => map (fun n => (n, merged_coord legs M pos n)) target in
  exists r, merge_edge E t merge ap exm exr = Ok r /\ wf_tensor r /\ t_names r = target /\
    (forall n e, In (n, e) (combine target (t_edges r)) -> merged_edge E t (group_of M n) e) /\
    (forall pos pt, assigns pos (t_names t) pt -> valid_pt (t_core t) pt ->
       exists v, const_at t pos = Ok v /\
         valid_pt (t_core r) (map snd (image pos)) /\
         const_at r (image pos) = Ok (signed ropp (merge_sign legs (t_names t) M ap exm exr pos) v)) /\
    (forall x, valid_pt (t_core r) x ->
       exists pos pt, assigns pos (t_names t) pt /\ valid_pt (t_core t) pt /\ x = map snd (image pos)) /\
    (forall pos1 pos2 p1 p2, assigns pos1 (t_names t) p1 -> assigns pos2 (t_names t) p2 ->
       valid_pt (t_core t) p1 -> valid_pt (t_core t) p2 -> image pos1 = image pos2 -> p1 = p2).
Proof. exact @merge_named. Qed.
Print Assumptions C12_merge_relabels.

(** [fuse] is a bijection from the coordinates of the legs to those of the merged edge and adds the charges *)
Theorem C12_fuse_bijective :
  forall (S : Type) (SS : Sym S) (SL : SymLaws S) (maps : list (list (S * nat))), sorted_maps maps ->
  (forall pt, in_range maps pt -> fst (fuse maps pt) = ssum (map fst pt) /\ snd (fuse maps pt) < merged_dim maps (ssum (map fst pt))) /\
  (forall p1 p2, in_range maps p1 -> in_range maps p2 -> fuse maps p1 = fuse maps p2 -> p1 = p2) /\
  (forall s n, n < merged_dim maps s -> exists pt, in_range maps pt /\ fuse maps pt = (s, n)).
Proof. exact @fuse_bijective. Qed.
Print Assumptions C12_fuse_bijective.

Definition ex_u4 : tensor Z Z := range_tensor [1; 2; 3; 4]
  (let m := [((-1)%Z, 1); (0%Z, 2); (1%Z, 2)] in [mkEdge false m; mkEdge false m; mkEdge false m; mkEdge false m]).
Definition ex_groups_u : list (nat * list nat) := [(5, [3; 1]); (6, [4]); (7, [])].
Lemma ex_u4_mergeable : mergeable exE ex_u4 ex_groups_u.
Proof.
  constructor.
  - now apply has_dup_false.
  - now apply has_dup_false.
  - intros k [<-|[<-|[<-|[]]]] H; exfalso; cbv in H; intuition discriminate.
  - discriminate.
Qed.
Example C12_example : wf_tensor ex_u4 /\ mergeable exE ex_u4 ex_groups_u /\
  let pos := [(1, (0%Z, 1)); (2, ((-1)%Z, 0)); (3, (1%Z, 0)); (4, (0%Z, 1))] in
  let M := effective [1; 2; 3; 4] ex_groups_u in
  let image := map (fun n => (n, merged_coord (combine (t_names ex_u4) (t_edges ex_u4)) M pos n)) (merged_names [1; 2; 3; 4] M) in
  merged_names [1; 2; 3; 4] M = [7; 5; 2; 6] /\
  image = [(7, (0%Z, 0)); (5, (1%Z, 5)); (2, ((-1)%Z, 0)); (6, (0%Z, 1))] /\
  exists r v, merge_edge exE ex_u4 ex_groups_u false [] [] = Ok r /\ const_at ex_u4 pos = Ok v /\ const_at r image = Ok v /\
    map emap (t_edges r) = [[(0%Z, 1)]; [((-2)%Z, 1); ((-1)%Z, 4); (0%Z, 8); (1%Z, 8); (2%Z, 4)];
      [((-1)%Z, 1); (0%Z, 2); (1%Z, 2)]; [((-1)%Z, 1); (0%Z, 2); (1%Z, 2)]].
Proof.
  split; [now apply range_wf|]. split; [exact ex_u4_mergeable|]. split; [reflexivity|]. split; [reflexivity|].
  eexists. eexists. split; [vm_compute; reflexivity|]. repeat split; vm_compute; reflexivity.
Qed.

(** ** C13.  [split_of legs M]: the groups of M with the edges the legs had.
    A tensor without blocks has no edge segment to split an empty group from, hence the fourth hypothesis. *)
Theorem C13_split_undoes_merge :
  forall (S R : Type) (SS : Sym S) (SL : SymLaws S) (RR : Scalar R) (E E' E'' : env) (t : tensor S R) merge ap exm exr,
  (forall v : R, ropp (ropp v) = v) -> wf_tensor t -> mergeable E t merge ->
  (t_blocks t <> [] \/ forall k l, In (k, l) (effective (t_names t) merge) -> l <> []) ->
  arrows_agree t (effective (t_names t) merge) ->
  let M := effective (t_names t) merge in
  let names' := flat_map (group_of M) (merged_names (t_names t) M) in
  exists r2, bind (merge_edge E t merge ap exm exr)
               (fun r => split_edge E' r (split_of (combine (t_names t) (t_edges t)) M) ap exm) = Ok r2 /\
    transpose E'' t names' = Ok r2 /\ Permutation (t_names t) names' /\
    bind (transpose E'' r2 (t_names t)) (fun t' => Ok t') = Ok t.
Proof. exact @split_merge_transpose. Qed.
Print Assumptions C13_split_undoes_merge.

(** without the hypothesis on the arrows: legs whose arrow differs from their group's stay turned, with their sign *)
Theorem C13_split_undoes_merge_any_arrows :
  forall (S R : Type) (SS : Sym S) (SL : SymLaws S) (RR : Scalar R) (E E' : env) (t : tensor S R) merge ap exm exr,
  (forall v : R, ropp (ropp v) = v) -> wf_tensor t -> mergeable E t merge ->
  (t_blocks t <> [] \/ forall k l, In (k, l) (effective (t_names t) merge) -> l <> []) ->
  let legs := combine (t_names t) (t_edges t) in
  let M := effective (t_names t) merge in
  let target := merged_names (t_names t) M in
  let names' := flat_map (group_of M) target in
  exists r r2, merge_edge E t merge ap exm exr = Ok r /\ split_edge E' r (split_of legs M) ap exm = Ok r2 /\
    wf_tensor r2 /\ t_names r2 = names' /\ Permutation (t_names t) names' /\
    map emap (t_edges r2) = map (fun n => emap (edge_named legs n)) names' /\
    (forall n e, In (n, e) (combine names' (t_edges r2)) ->
       exists k ek, In (k, ek) (combine target (t_edges r)) /\ In n (group_of M k) /\ earrow e = earrow ek) /\
    (forall pos pt, assigns pos (t_names t) pt -> valid_pt (t_core t) pt -> exists v, const_at t pos = Ok v /\
       valid_pt (t_core r2) (map (coord pos) names') /\
       const_at r2 pos = Ok (signed ropp (exchanged_odd (leg_odd pos) (t_names t) names' +
          count (fun n => turned legs (map (group_of M) target) n && applied ap exr n && leg_odd pos n) (t_names t)) v)).
Proof. exact @split_merge_named. Qed.
Print Assumptions C13_split_undoes_merge_any_arrows.

(** merging legs 2 and 4 (both outgoing) of the fermionic tensor *)
Definition ex_groups_f : list (nat * list nat) := [(8, [2; 4])].
Lemma ex_f4_groups : effective (t_names ex_f4) ex_groups_f = [(8, [2; 4])].
Proof. vm_compute. reflexivity. Qed.
Lemma ex_f4_leg : In (2, nth 1 (t_edges ex_f4) (mkEdge false [])) (combine (t_names ex_f4) (t_edges ex_f4)).
Proof.
  assert (H : length (t_names ex_f4) = length (t_edges ex_f4)) by (vm_compute; reflexivity).
  replace (2, nth 1 (t_edges ex_f4) (mkEdge false [])) with (nth 1 (combine (t_names ex_f4) (t_edges ex_f4)) (0, mkEdge false [])).
  - apply nth_In. rewrite combine_length, <- H. apply Nat.ltb_lt. vm_compute. reflexivity.
  - rewrite combine_nth by exact H. now f_equal.
Qed.
Example C13_example : mergeable exE ex_f4 ex_groups_f /\ t_blocks ex_f4 <> [] /\ arrows_agree ex_f4 (effective (t_names ex_f4) ex_groups_f) /\
  bind (merge_edge exE ex_f4 ex_groups_f true [] []) (fun r => const_at r (ex_image ex_f4 ex_groups_f ex_pos4)) = Ok 41%Z /\
  bind (merge_edge exE ex_f4 ex_groups_f true [] [])
    (fun r => bind (split_edge exE r (split_of (combine (t_names ex_f4) (t_edges ex_f4)) ex_groups_f) true [])
    (fun r2 => const_at r2 ex_pos4)) = Ok (-41)%Z /\
  bind (merge_edge exE ex_f4 ex_groups_f true [] [])
    (fun r => bind (split_edge exE r (split_of (combine (t_names ex_f4) (t_edges ex_f4)) ex_groups_f) true [])
    (fun r2 => bind (transpose exE r2 [1; 2; 3; 4]) (fun r3 => const_at r3 ex_pos4))) = Ok 41%Z.
Proof.
  split; [|split; [|split]].
  - constructor.
    + now apply has_dup_false.
    + now apply has_dup_false.
    + intros k [<-|[]] H; exfalso; cbv in H; intuition discriminate.
    + intros _. right. rewrite ex_f4_groups. intros k l [H|[]]. injection H as <- <-. right. exists 2.
      eexists. split; [now left|]. split; [exact ex_f4_leg|]. vm_compute. reflexivity.
  - intro H. apply (f_equal (@length _)) in H. vm_compute in H. discriminate.
  - rewrite ex_f4_groups. intros k l [H|[]] _. injection H as <- <-. exists false. split; [reflexivity|]. split.
    + intros _. right. exists 2. split; [now left|]. vm_compute. reflexivity.
    + intros n [<-|[<-|[]]]; vm_compute; reflexivity.
  - repeat split; vm_compute; reflexivity.
Qed.
