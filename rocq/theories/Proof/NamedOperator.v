(** edge_operator in terms of names: arguments without renaming and cutting. *)
From Coq Require Import String List Bool Arith Lia Sorted Permutation.
From Verif Require Import Base.Outcome Base.SMap Model.Symmetry Model.Edge Model.Core Model.Transpose Model.EdgeOperator
  Spec.Blocks Spec.Fuse Spec.Strided Spec.Sign Spec.Relabel Proof.SymmetryFacts Proof.LoopFacts Proof.CoreFacts Proof.ConstructFacts Proof.ElemFacts Proof.OffsetFacts
  Proof.KernelFacts Proof.TransposeFacts Proof.GroupFacts Proof.CopyLoopFacts Proof.TableFacts Proof.EdgeOperatorFacts Proof.EdgeOperatorMain Proof.SignFacts
  Proof.TransposeTensor Proof.TransposeNames.
Import ListNotations.

Lemma combine_map2 : forall A B C D (f : A -> C) (g : B -> D) la lb,
  combine (map f la) (map g lb) = map (fun x => (f (fst x), g (snd x))) (combine la lb).
Proof. induction la as [|a la IH]; intros [|b lb]; simpl; auto. f_equal. apply IH. Qed.
Lemma combine_same : forall A B (f : A -> B) l, combine (map f l) l = map (fun x => (f x, x)) l.
Proof. induction l; simpl; auto. now rewrite IHl. Qed.
Lemma combine_self : forall A (l : list A), combine l l = map (fun x => (x, x)) l.
Proof. induction l; simpl; auto. now rewrite IHl. Qed.
Lemma group_by_map_groups : forall A B (f : A -> B) (gs : list (list A)), group_by gs (map f (concat gs)) = map (map f) gs.
Proof. intros. rewrite map_group_by, group_by_concat. reflexivity. Qed.
Lemma par_concat : forall A (f : A -> bool) ls, par f (concat ls) = par (fun l => par f l) ls.
Proof. induction ls as [|l ls IH]; [reflexivity|]. cbn [concat]. rewrite par_app, IH. reflexivity. Qed.

Lemma nth_error_combine_some : forall A B (l1 : list A) (l2 : list B) i x y,
  nth_error l1 i = Some x -> nth_error l2 i = Some y -> nth_error (combine l1 l2) i = Some (x, y).
Proof.
  induction l1 as [|a l1 IH]; intros [|b l2] [|i] x y H1 H2; simpl in *; try discriminate; auto.
  now injection H1 as ->; injection H2 as ->.
Qed.
Lemma Forall2_map_l_inv : forall A B C (P : C -> B -> Prop) (f : A -> C) l1 l2, Forall2 P (map f l1) l2 -> Forall2 (fun x y => P (f x) y) l1 l2.
Proof. induction l1 as [|x l1 IH]; intros l2 H; inversion H; subst; constructor; auto. Qed.
Lemma Forall2_map_r_inv : forall A B C (P : A -> C -> Prop) (f : B -> C) l1 l2, Forall2 P l1 (map f l2) -> Forall2 (fun x y => P x (f y)) l1 l2.
Proof. intros A B C P f l1 l2. revert l1. induction l2 as [|x l2 IH]; intros l1 H; inversion H; subst; constructor; auto. Qed.
Lemma Forall2_same : forall A (P : A -> A -> Prop) l, (forall x, In x l -> P x x) -> Forall2 P l l.
Proof. induction l as [|x l IH]; intro H; constructor; [apply H; now left|apply IH; intros; apply H; now right]. Qed.
Lemma Forall2_self : forall A (P : A -> A -> Prop) l, Forall2 P l l -> forall x, In x l -> P x x.
Proof. induction l as [|y l IH]; intros H x HI; [contradiction|]. inversion H; subst. destruct HI as [->|HI]; auto. Qed.
Lemma Forall2_map_eq : forall A B C (f : A -> C) (g : B -> C) l1 l2, Forall2 (fun x y => g y = f x) l1 l2 -> map g l2 = map f l1.
Proof. induction 1; simpl; congruence. Qed.
Lemma NoDup_app_inv : forall A (l1 l2 : list A), NoDup (l1 ++ l2) -> NoDup l1 /\ NoDup l2 /\ (forall x, In x l1 -> ~ In x l2).
Proof.
  induction l1 as [|x l1 IH]; intros l2 H.
  - split; [constructor|]. split; [exact H|]. intros x [].
  - simpl in H. inversion H; subst. destruct (IH l2 H3) as [A1 [A2 A3]]. split; [|split; auto].
    + constructor; auto. intro Hc. apply H2. apply in_or_app. now left.
    + intros y [<-|Hy]; [|now apply A3]. intro Hc. apply H2. apply in_or_app. now right.
Qed.

Section Named.
  Context {S R : Type} {SS : Sym S} {SL : SymLaws S} {RR : Scalar R}.
  Notation entry := (S * nat)%type.

  (** ** arrow fixing of a group *)
  Lemma fix_arrows_some : forall (es : list (edge S)) b,
    fix_arrows (Some b) es =
      (map (fun e => if arrow_valid e && negb (Bool.eqb b (earrow e)) then flip e else e) es,
       map (fun e => arrow_valid e && negb (Bool.eqb b (earrow e))) es, Some b).
  Proof.
    induction es as [|e es IH]; intro b; [reflexivity|]. cbn [fix_arrows map]. destruct (arrow_valid e) eqn:V.
    - rewrite IH. destruct (Bool.eqb b (earrow e)); reflexivity.
    - rewrite IH. reflexivity.
  Qed.
  Lemma fix_arrows_none : forall es : list (edge S),
    fix_arrows None es = (map (fun e => if against es e then flip e else e) es, map (against es) es, first_arrow es).
  Proof.
    induction es as [|e es IH]; [reflexivity|]. cbn [fix_arrows]. destruct (arrow_valid e) eqn:V.
    - rewrite fix_arrows_some. unfold against, first_arrow. cbn [find map]. rewrite V. cbn [andb].
      rewrite Bool.eqb_reflx. cbn [negb]. reflexivity.
    - rewrite IH.
      assert (HF : first_arrow (e :: es) = first_arrow es) by (unfold first_arrow; cbn [find]; now rewrite V).
      assert (HA : forall x, against (e :: es) x = against es x) by (intro x; unfold against; now rewrite HF).
      assert (HE : against es e = false) by (unfold against; rewrite V; now destruct (first_arrow es)).
      cbn [map]. rewrite HF, !HA, HE. f_equal. f_equal.
      + f_equal. apply map_ext. intro x. now rewrite HA.
      + f_equal. apply map_ext. intro x. now rewrite HA.
  Qed.
  Lemma against_single : forall e : edge S, against [e] e = false.
  Proof.
    intro e. unfold against, first_arrow. cbn [find]. destruct (arrow_valid e); [|reflexivity]. now rewrite Bool.eqb_reflx.
  Qed.

  Section Fix.
  Variables (E : @env R) (t : tensor S R) (a : @eo_args S).
  Hypothesis Hpre : eo_pre E t a.
  Hypothesis Hren : a_rename a = [].

  Definition legs : list (nat * edge S) := concat (sgroups t a).
  Definition legs3 : list (nat * edge S) := combine (names2 t a) (edges3 t a).
  Definition src_coord (pos : list (nat * entry)) (n : nat) : entry :=
    match mfind n (a_split a) with Some ps => joined legs (map fst ps) pos | None => coord pos n end.

  Lemma named_names1 : names1 t a = t_names t.
  Proof. unfold names1. rewrite Hren. unfold rename_one. cbn [mfind]. apply map_id. Qed.
  Lemma legs_names : map fst legs = names2 t a.
  Proof. reflexivity. Qed.
  Lemma legs_in : forall n e, In (n, e) legs -> edge_named legs n = e.
  Proof.
    intros n e H. unfold edge_named. rewrite (In_mfind_nodup _ _ _ (pre_names _ _ _ Hpre) H). reflexivity.
  Qed.
  Lemma legs_edges : map (edge_named legs) (names2 t a) = edges2 t a.
  Proof.
    unfold names2, edges2. fold legs. rewrite map_map. apply map_ext_in. intros [n e] H. cbn [fst snd]. now apply legs_in.
  Qed.
  Lemma legs_maps : map (fun n => emap (edge_named legs n)) (names2 t a) = concat (gms t a).
  Proof. rewrite flat_maps. unfold maps_of. rewrite <- legs_edges, map_map. reflexivity. Qed.
  Lemma assigns_coord : forall (pos : position) names (p : list entry), assigns pos names p -> p = map (coord pos) names.
  Proof.
    unfold assigns. intros pos names. induction names as [|n names IH]; intros [|x p] H; try discriminate; auto.
    cbn [map] in H. injection H as H1 H2. cbn [map]. f_equal; [unfold coord; now rewrite H1|now apply IH].
  Qed.

  Variables (pos : list (nat * entry)) (p : list entry).
  Hypothesis Hpos : assigns pos (names2 t a) p.
  Lemma pt_coords : p = map (coord pos) (names2 t a).
  Proof. exact (assigns_coord _ _ _ Hpos). Qed.

  Lemma src_pt_named : src_pt t a p = map (src_coord pos) (t_names t).
  Proof.
    unfold src_pt. rewrite pt_coords. 
    assert (HG : group_by (gms t a) (map (coord pos) (names2 t a)) = map (fun g => map (fun x => coord pos (fst x)) g) (sgroups t a)).
    { unfold names2. rewrite map_map.
      rewrite (group_by_lengths _ _ _ (gms t a) (sgroups t a)).
      - apply group_by_map_groups.
      - rewrite gms_eq, map_map. apply map_ext. intro g. apply map_length. }
    rewrite HG, gms_eq. unfold fuses. rewrite combine_map2, combine_self, !map_map. cbn [fst snd].
    unfold sgroups. rewrite map_map.
    transitivity (map (fun ne : nat * edge S => src_coord pos (fst ne)) (combine (names1 t a) (edges1 t a))).
    - apply map_ext_in. intros [n e] HI. cbn [fst].
      assert (HIn : forall x, In x (parts a (n, e)) -> In x legs).
      { intros x Hx. unfold legs, sgroups. apply in_concat. exists (parts a (n, e)). split; auto. now apply in_map. }
      unfold src_coord, parts in *. cbn [fst snd] in *. destruct (mfind n (a_split a)) as [ps|].
      + unfold joined. rewrite !map_map. cbn [fst snd emap]. f_equal. apply map_ext_in. intros [m f] Hm. cbn [fst snd].
        rewrite (legs_in m (mkEdge (earrow e) (emap f))); [reflexivity|]. apply HIn. apply in_map_iff. exists (m, f). auto.
      + cbn [map fst snd]. apply fuse_one.
    - rewrite <- (map_map fst (src_coord pos)). rewrite combine_map_fst; [now rewrite named_names1|].
      rewrite (len1 E t a Hpre). symmetry. apply (len2 E t a Hpre).
  Qed.

  Lemma kept_named : kept t a (map fst p) =
    forallb (fun ne => keep a ne (ssum (map (fun x => fst (coord pos (fst x))) (parts a ne)))) (combine (names1 t a) (edges1 t a)).
  Proof.
    unfold kept, all_kept. rewrite pt_coords.
    assert (HG : group_by (gms t a) (map fst (map (coord pos) (names2 t a))) = map (fun g => map (fun x => fst (coord pos (fst x))) g) (sgroups t a)).
    { unfold names2. rewrite !map_map.
      rewrite (group_by_lengths _ _ _ (gms t a) (sgroups t a)).
      - apply group_by_map_groups.
      - rewrite gms_eq, map_map. apply map_ext. intro g. apply map_length. }
    rewrite HG. unfold mks, sgroups. rewrite map_map, combine_map2, combine_self, map_map.
    induction (combine (names1 t a) (edges1 t a)) as [|ne l IH]; [reflexivity|]. cbn [map forallb]. f_equal. exact IH.
  Qed.

  Variable d2s : list nat.
  Hypothesis Hplans : inverse_plans (length (names2 t a)) (invert_plan d2s) d2s.
  Hypothesis Hnames : concat (groups a) = permuted 0 d2s (names2 t a).

  Lemma permuted_named : forall A (d : A) (f : nat -> A), permuted d d2s (map f (names2 t a)) = map f (concat (groups a)).
  Proof.
    intros A d f. rewrite Hnames. unfold permuted. rewrite map_map. apply map_ext_in. intros j Hj.
    pose proof (plan_in_bound _ _ _ Hplans j Hj) as Hb.
    rewrite (nth_indep _ d (f 0)) by (now rewrite map_length). apply map_nth.
  Qed.
  Lemma gmd_named : gmd t a d2s = map (map (fun n => emap (edge_named legs n))) (groups a).
  Proof. unfold gmd. rewrite <- legs_maps, permuted_named. apply group_by_map_groups. Qed.

  Lemma group_named : forall f : list nat -> entry,  (forall n, f [n] = coord pos n) ->
    map f (groups a) = map (fun n => match mfind n (a_merge a) with Some l => f l | None => coord pos n end) (a_new_names a).
  Proof.
    intros f Hf. unfold groups, merge_groups. rewrite map_map. apply map_ext. intro n. destruct (mfind n (a_merge a)); auto.
  Qed.
  Lemma dst_pt_named : dst_pt t a d2s p = map (merged_coord legs (a_merge a) pos) (a_new_names a).
  Proof.
    unfold dst_pt. rewrite pt_coords, permuted_named. rewrite gmd_named.
    rewrite (group_by_lengths _ _ _ _ (groups a)).
    - rewrite group_by_map_groups. unfold fuses. rewrite combine_map2, combine_self, !map_map. cbn [fst snd].
      transitivity (map (fun l => joined legs l pos) (groups a)); [reflexivity|].
      rewrite (group_named (fun l => joined legs l pos)).
      + reflexivity.
      + intro n. unfold joined. cbn [map]. apply fuse_one.
    - rewrite map_map. apply map_ext. intro. apply map_length.
  Qed.

  (** ** the sign *)
  Definition selected (ap : bool) (ex : list nat) (n : nat) : bool := if ap then negb (mem_name n ex) else mem_name n ex.
  Definition fixed_leg (n : nat) : bool :=
    existsb (fun l => mem_name n l && against (map (edge_named legs3) l) (edge_named legs3 n)) (groups a).
  Definition split_groups : list (nat * list nat) :=
    map (fun n => (n, match mfind n (a_split a) with Some ps => map fst ps | None => [n] end)) (t_names t).
  Definition merge_groups_named : list (nat * list nat) := combine (a_new_names a) (groups a).
  Definition sign_number : nat :=
    exchanged_odd (leg_odd pos) (names2 t a) (concat (groups a))
    + (count (fun n => mem_name n (a_reversed a) && selected (a_apply_parity a) (a_ex_rev a) n && leg_odd pos n) (names2 t a)
    + (pairs_in (leg_odd pos) (selected (a_apply_parity a) (a_ex_split a)) split_groups
    + (count (fun n => fixed_leg n && selected (a_apply_parity a) (a_ex_rev_merge a) n && leg_odd pos n) (concat (groups a))
    + pairs_in (leg_odd pos) (selected (a_apply_parity a) (a_ex_merge a)) merge_groups_named))).

  Lemma coord_leg : forall n, In n (names2 t a) -> sodd (fst (coord pos n)) = leg_odd pos n.
  Proof.
    intros n Hn. unfold coord, leg_odd. apply In_nth_error in Hn as [i Hi]. 
    assert (HL : length (names2 t a) = length p) by (eapply assigns_length; eauto).
    destruct (nth_error p i) as [x|] eqn:Ep.
    - rewrite (assigns_nth _ _ _ _ _ _ Hpos Hi Ep). now destruct x.
    - apply nth_error_None in Ep. assert (i < length (names2 t a)) by (apply nth_error_Some; congruence). lia.
  Qed.
  Lemma coord_leg_group : forall n, In n (concat (groups a)) -> sodd (fst (coord pos n)) = leg_odd pos n.
  Proof. intros n H. apply coord_leg. eapply Permutation_in; [|exact H]. apply Permutation_sym. apply Hpre. Qed.

  Lemma odd_pairs_map : forall (l : list nat), (forall n, In n l -> sodd (fst (coord pos n)) = leg_odd pos n) ->
    Nat.odd (odd_pairs sodd (map (fun n => fst (coord pos n)) l)) = Nat.odd (odd_pairs (leg_odd pos) l).
  Proof.
    intros l H. unfold odd_pairs. rewrite <- !par_filter. rewrite ordered_pairs_map, par_map. apply par_ext. intros [x y] HI. cbn [fst snd].
    apply in_ordered_pairs in HI as [i [j [_ [H1 H2]]]]. apply nth_error_In in H1, H2. now rewrite !H.
  Qed.
  Lemma odd_list_sum : forall A (f : A -> nat) l, Nat.odd (list_sum (map f l)) = par (fun x => Nat.odd (f x)) l.
  Proof. induction l as [|x l IH]; [reflexivity|]. cbn [map]. change (list_sum (f x :: map f l)) with (f x + list_sum (map f l)). rewrite Nat.odd_add, IH. reflexivity. Qed.
  Lemma odd_pairs_in : forall odd sel gs, Nat.odd (pairs_in odd sel gs) = par (fun nl => sel (fst nl) && Nat.odd (odd_pairs odd (snd nl))) gs.
  Proof. intros. unfold pairs_in. rewrite odd_list_sum. apply par_ext. intros [n l] _. cbn [fst snd]. destruct (sel n); reflexivity. Qed.

  Lemma group_parity_named : forall ap ex (ng : list (nat * list nat)) (key : list S),
    key = map (fun n => fst (coord pos n)) (concat (map snd ng)) ->
    (forall n, In n (concat (map snd ng)) -> sodd (fst (coord pos n)) = leg_odd pos n) ->
    get_split_merge_parity key (flags_from 0 (map snd ng)) (mark ap ex (map fst ng)) =
    Nat.odd (pairs_in (leg_odd pos) (selected ap ex) ng).
  Proof.
    intros ap ex ng key -> Hc. unfold get_split_merge_parity. rewrite split_merge_parity_groups.
    - rewrite group_by_map_groups, odd_pairs_in. unfold mark. rewrite map_map, map_map. rewrite combine_map2, combine_self, map_map, par_map.
      apply par_ext. intros [n l] HI. cbn [fst snd]. unfold selected. f_equal.
      apply odd_pairs_map. intros m Hm. apply Hc. apply in_concat. exists l. split; auto. change l with (snd (n, l)). now apply in_map.
    - now rewrite map_length.
    - unfold mark. now rewrite !map_length.
  Qed.

  Lemma reverse_parity_named : forall (names : list nat) (f : nat -> bool) ap ex,
    (forall n, In n names -> sodd (fst (coord pos n)) = leg_odd pos n) ->
    get_reverse_parity (map (fun n => fst (coord pos n)) names) (map f names) (mark ap ex names) =
    Nat.odd (count (fun n => f n && selected ap ex n && leg_odd pos n) names).
  Proof.
    intros names f ap ex Hc. unfold count. rewrite <- par_filter. unfold mark.
    induction names as [|n names IH]; [reflexivity|]. cbn [map get_reverse_parity par fold_right].
    rewrite IH by (intros; apply Hc; now right). rewrite (Hc n (or_introl eq_refl)).
    unfold selected. destruct (f n); destruct (if ap then negb (mem_name n ex) else mem_name n ex); reflexivity.
  Qed.

  Lemma split_groups_snd : map snd split_groups = map (map fst) (sgroups t a).
  Proof.
    unfold split_groups, sgroups. rewrite !map_map. cbn [snd].
    transitivity (map (fun ne : nat * edge S => match mfind (fst ne) (a_split a) with Some ps => map fst ps | None => [fst ne] end) (combine (names1 t a) (edges1 t a))).
    - rewrite <- (map_map fst (fun n => match mfind n (a_split a) with Some ps => map fst ps | None => [n] end)).
      rewrite combine_map_fst; [now rewrite named_names1|]. rewrite (len1 E t a Hpre). symmetry. apply (len2 E t a Hpre).
    - apply map_ext. intros [n e]. cbn [fst]. unfold parts. cbn [fst snd]. destruct (mfind n (a_split a)); [|reflexivity].
      rewrite map_map. reflexivity.
  Qed.
  Lemma split_groups_fst : map fst split_groups = names1 t a.
  Proof. unfold split_groups. rewrite map_map. cbn [fst]. rewrite map_id. symmetry. apply named_names1. Qed.

  Lemma legs3_edges : map (edge_named legs3) (names2 t a) = edges3 t a.
  Proof.
    assert (HL : length (names2 t a) = length (edges3 t a)).
    { unfold edges3. rewrite map_length, combine_length. unfold rev2. rewrite map_length, len_edges2. lia. }
    apply nth_error_ext. intro i. rewrite nth_error_map.
    destruct (nth_error (names2 t a) i) as [n|] eqn:En.
    - cbn [option_map]. destruct (nth_error (edges3 t a) i) as [e|] eqn:Ee.
      + f_equal. unfold edge_named, legs3. rewrite (In_mfind_nodup _ n e); auto.
        * rewrite combine_map_fst by exact HL. apply Hpre.
        * apply nth_error_In with (n := i). apply nth_error_combine_some; auto.
      + apply nth_error_None in Ee. assert (i < length (names2 t a)) by (apply nth_error_Some; congruence). lia.
    - cbn [option_map]. symmetry. apply nth_error_None. apply nth_error_None in En. lia.
  Qed.
  Lemma groups4_named : group_by (groups a) (edges4 t a d2s) = map (map (edge_named legs3)) (groups a).
  Proof.
    unfold edges4. change (map (fun i => nth i (edges3 t a) (mkEdge false [])) d2s) with (permuted (mkEdge false []) d2s (edges3 t a)).
    rewrite <- legs3_edges, permuted_named. apply group_by_map_groups.
  Qed.

  (** what is known about the result edge of a group *)
  Record group_edge (l : list nat) (e : edge S) : Prop := {
    ge_map : merged_map (map (fun n => emap (edge_named legs n)) l) (emap e);
    ge_one : forall n, l = [n] -> e = edge_named legs3 n;
    ge_bose : length l <> 1 -> is_fermi = false -> earrow e = false;
    ge_fermi : length l <> 1 -> is_fermi = true ->
      Some (earrow e) = match first_arrow (map (edge_named legs3) l) with Some b => Some b | None => env_arrow E end }.

  Lemma merge_one_inv : forall (es : list (edge S)) x, merge_one E es = Ok x ->
    snd (fst (fst x)) = (if is_fermi then map (against es) es else map (fun _ => false) es) /\
    (forall e, es = [e] -> snd (fst x) = e) /\
    (length es <> 1 -> is_fermi = false -> earrow (snd (fst x)) = false) /\
    (length es <> 1 -> is_fermi = true -> Some (earrow (snd (fst x))) = match first_arrow es with Some b => Some b | None => env_arrow E end).
  Proof.
    intros es x H. unfold merge_one in H. destruct is_fermi eqn:F.
    - rewrite fix_arrows_none in H. destruct es as [|e [|e2 es]].
      + cbn [map first_arrow find] in H. destruct (merge_offsets []) as [om| | |]; try discriminate. cbn [bind] in H.
        unfold first_arrow in H. cbn [find] in H. destruct (env_arrow E) as [ab|] eqn:EA; [|discriminate]. cbn [get_or_ub bind] in H.
        injection H as <-. cbn [fst snd earrow map]. repeat split; try discriminate; auto; intros; discriminate.
      + cbn [map] in H. rewrite against_single in H. injection H as <-. cbn [fst snd length map]. rewrite against_single.
        repeat split; try (intros; congruence). 
      + cbn [map] in H. set (es0 := e :: e2 :: es) in *.
        destruct (merge_offsets _) as [om| | |]; try discriminate. cbn [bind] in H.
        destruct (get_or_ub _) as [ab| | |] eqn:EA; try discriminate. cbn [bind] in H. injection H as <-. cbn [fst snd earrow].
        split; [reflexivity|]. split; [intros; discriminate|]. split; [intros; discriminate|]. intros _ _.
        destruct (first_arrow es0) as [b|]; cbn [get_or_ub] in EA; [injection EA as <-; reflexivity|].
        destruct (env_arrow E); cbn [get_or_ub] in EA; [injection EA as <-; reflexivity|discriminate].
    - assert (G : forall l, (match l with [e] => Ok (es, map (fun _ : edge S => false) es, e, []) | _ =>
         bind (merge_offsets (map emap es)) (fun om => bind (Ok false) (fun arrow => Ok (es, map (fun _ => false) es, mkEdge arrow (snd om), fst om))) end) = Ok x ->
         snd (fst (fst x)) = map (fun _ => false) es /\ (forall e, l = [e] -> snd (fst x) = e) /\ (length l <> 1 -> earrow (snd (fst x)) = false)).
      { intros l HH. destruct l as [|e [|e2 l]].
        - destruct (merge_offsets _) as [om| | |]; try discriminate. cbn [bind] in HH. injection HH as <-. cbn [fst snd]. repeat split; intros; discriminate.
        - injection HH as <-. cbn [fst snd length]. repeat split; intros; congruence.
        - destruct (merge_offsets _) as [om| | |]; try discriminate. cbn [bind] in HH. injection HH as <-. cbn [fst snd]. repeat split; intros; discriminate. }
      specialize (G es H) as [G1 [G2 G3]]. split; [exact G1|]. split; [exact G2|]. split; [auto|intros; discriminate].
  Qed.

  Variable mr : list (list (edge S) * list bool * edge S * @offset_map S).
  Hypothesis Hmr : merge_stage E t a d2s = Ok mr.
  Hypothesis Hmm : Forall2 (fun maps x => merged_map maps (emap (snd (fst x)))) (gmd t a d2s) mr.

  Lemma mapM_inv : forall A B (f : A -> res B) l l', mapM f l = Ok l' -> Forall2 (fun x y => f x = Ok y) l l'.
  Proof.
    induction l as [|x l IH]; intros l' H; simpl in H.
    - injection H as <-. constructor.
    - destruct (f x) eqn:E1; try discriminate. simpl in H. destruct (mapM f l) eqn:E2; try discriminate. injection H as <-. constructor; auto.
  Qed.
  Lemma groups4_singles : a_merge a = [] -> edges4 t a d2s = map (edge_named legs3) (a_new_names a).
  Proof.
    intro H. unfold edges4. change (map (fun i => nth i (edges3 t a) (mkEdge false [])) d2s) with (permuted (mkEdge false []) d2s (edges3 t a)).
    rewrite <- legs3_edges, permuted_named. f_equal. rewrite (nil_groups a H). apply singles_concat.
  Qed.
  Lemma stage_groups : Forall2 (fun l x =>
     snd (fst (fst x)) = (if is_fermi then map (fun n => against (map (edge_named legs3) l) (edge_named legs3 n)) l else map (fun _ => false) l) /\
     group_edge l (snd (fst x))) (groups a) mr.
  Proof.
    pose proof Hmm as HM. rewrite gmd_named in HM. apply Forall2_map_l_inv in HM.
    pose proof Hmr as HR. unfold merge_stage in HR. destruct (is_nil (a_merge a)) eqn:En.
    - assert (Hnil : a_merge a = []) by (destruct (a_merge a); [reflexivity|discriminate]).
      rewrite groups4_singles in HR by exact Hnil. rewrite (nil_groups a Hnil) in *.
      assert (HR2 : mr = map (fun n => ([edge_named legs3 n], [false], edge_named legs3 n, [])) (a_new_names a)) by (injection HR as <-; now rewrite map_map).
      rewrite HR2 in *. apply Forall2_map_l_inv, Forall2_map_r_inv in HM. apply Forall2_map_l, Forall2_map_r.
      apply Forall2_same. intros n Hn. pose proof (Forall2_self _ _ _ HM n Hn) as Hx. cbn [fst snd] in *. split.
      + cbn [map]. rewrite against_single. destruct is_fermi; reflexivity.
      + constructor; auto; [|cbn [length]; congruence..]. intros m Em. injection Em as ->. reflexivity.
    - rewrite groups4_named in HR. apply mapM_inv in HR. apply Forall2_map_l_inv in HR.
      eapply Forall2_imp; [|exact (Forall2_and _ _ _ _ _ _ HR HM)]. cbv beta. intros l x [H1 H2].
      apply merge_one_inv in H1 as [A [B [C D]]]. rewrite map_length in *. split.
      + rewrite A. destruct is_fermi; rewrite map_map; reflexivity.
      + constructor; auto. intros n ->. apply B. reflexivity.
  Qed.

  Lemma mem_name_In : forall n l, mem_name n l = true <-> In n l.
  Proof.
    intros n l. unfold mem_name. rewrite existsb_exists. split.
    - intros [x [H E1]]. apply Nat.eqb_eq in E1. now subst.
    - intro H. exists n. split; auto. apply Nat.eqb_refl.
  Qed.
  Lemma existsb_groups : forall (f : list nat -> nat -> bool) gs, NoDup (concat gs) ->
    concat (map (fun l => map (f l) l) gs) = map (fun n => existsb (fun l => mem_name n l && f l n) gs) (concat gs).
  Proof.
    intros f gs. induction gs as [|l gs IH]; intro Hn; [reflexivity|]. cbn [map concat]. rewrite map_app.
    cbn [concat] in Hn. apply NoDup_app_inv in Hn as [N1 [N2 N3]]. f_equal.
    - apply map_ext_in. intros n Hl. cbn [existsb]. replace (mem_name n l) with true by (symmetry; now apply mem_name_In).
      cbn [andb]. destruct (f l n); [reflexivity|]. cbn [orb]. symmetry. apply existsb_false. intros l' Hl'.
      destruct (mem_name n l') eqn:Em; [|reflexivity]. apply mem_name_In in Em. exfalso. apply (N3 n Hl). apply in_concat. eauto.
    - rewrite IH by exact N2. apply map_ext_in. intros n Hc. cbn [existsb].
      destruct (mem_name n l) eqn:Em; [|reflexivity]. apply mem_name_In in Em. exfalso. exact (N3 n Em Hc).
  Qed.

  Lemma groups_NoDup : NoDup (concat (groups a)).
  Proof. eapply Permutation_NoDup; [apply Hpre|apply Hpre]. Qed.
  Lemma rev_after_named : is_fermi = true ->
    concat (map (fun x => snd (fst (fst x))) mr) = map fixed_leg (concat (groups a)).
  Proof.
    intro F. unfold fixed_leg. rewrite <- (existsb_groups (fun l n => against (map (edge_named legs3) l) (edge_named legs3 n))) by apply groups_NoDup.
    f_equal. pose proof stage_groups as H. rewrite F in H.
    apply Forall2_map_eq. eapply Forall2_imp; [|exact H]. cbv beta. intros l x [H1 _]. exact H1.
  Qed.

  Lemma count_zero : forall A (f : A -> bool) l, (forall x, f x = false) -> count f l = 0.
  Proof. intros A f l H. unfold count. induction l as [|x l IH]; [reflexivity|]. cbn [filter]. now rewrite H. Qed.
  Lemma bose_leg_odd : is_fermi = false -> forall n, leg_odd pos n = false.
  Proof. intros F n. unfold leg_odd. destruct (mfind n pos) as [[s k]|]; auto. now apply bose_odd. Qed.
  Lemma bose_pairs_in : is_fermi = false -> forall sel gs, pairs_in (leg_odd pos) sel gs = 0.
  Proof.
    intros F sel gs. unfold pairs_in. induction gs as [|[n l] gs IH]; [reflexivity|]. cbn [map fst snd].
    unfold list_sum in *. cbn [fold_right].
    assert (HO : odd_pairs (leg_odd pos) l = 0).
    { unfold odd_pairs. induction (ordered_pairs l) as [|[x y] q IHq]; [reflexivity|]. cbn [filter fst snd]. now rewrite bose_leg_odd. }
    rewrite HO. destruct (sel n); exact IH.
  Qed.
  Lemma sign_bose : is_fermi = false -> sign_number = 0.
  Proof.
    intro F. unfold sign_number. rewrite bose_exchanged by exact F. rewrite !bose_pairs_in by exact F.
    rewrite !count_zero; [reflexivity| |]; intro n; rewrite bose_leg_odd by exact F; apply andb_false_r.
  Qed.

  Lemma eo_parity_named : eo_parity t a d2s mr (map fst p) (permuted szero d2s (map fst p)) = Nat.odd sign_number.
  Proof.
    unfold eo_parity. destruct is_fermi eqn:F; [|now rewrite sign_bose].
    assert (Hfst : map fst p = map (fun n => fst (coord pos n)) (names2 t a)) by (rewrite pt_coords, map_map; reflexivity).
    unfold sign_number. rewrite !Nat.odd_add. f_equal; [|f_equal; [|f_equal; [|f_equal]]].
    - rewrite Hnames. apply transpose_parity_names; [apply Hpre| |exact Hplans|].
      + rewrite Hfst. apply map_length.
      + intros i n s H1 H2. rewrite Hfst in H2. rewrite nth_error_map, H1 in H2. injection H2 as <-. symmetry. apply coord_leg. eapply nth_error_In; eauto.
    - rewrite Hfst. unfold rev2. rewrite reverse_parity_named by (intros; now apply coord_leg). rewrite F. reflexivity.
    - replace (flags_from 0 (sgroups t a)) with (flags_from 0 (map snd split_groups)).
      + rewrite <- split_groups_fst. apply group_parity_named.
        * rewrite Hfst. f_equal. rewrite split_groups_snd. unfold names2. apply concat_map.
        * intros n Hn. apply coord_leg. rewrite split_groups_snd in Hn. unfold names2. rewrite concat_map. exact Hn.
      + apply flags_from_lengths. rewrite split_groups_snd, map_map. apply map_ext. intro. apply map_length.
    - rewrite Hfst, permuted_named, rev_after_named by exact F. apply reverse_parity_named. intros; now apply coord_leg_group.
    - assert (HL : length (a_new_names a) = length (groups a)) by (unfold groups, merge_groups; now rewrite map_length).
      assert (H1 : map fst merge_groups_named = a_new_names a) by (unfold merge_groups_named; now apply combine_map_fst).
      assert (H2 : map snd merge_groups_named = groups a) by (unfold merge_groups_named; now apply combine_map_snd).
      rewrite <- H2 at 1. rewrite <- H1 at 1. apply group_parity_named; rewrite H2.
      + rewrite Hfst. apply permuted_named.
      + exact coord_leg_group.
  Qed.
  End Fix.

  Theorem edge_operator_named : forall (E : @env R) (t : tensor S R) (a : @eo_args S), eo_pre E t a -> a_rename a = [] ->
    is_same_vector (t_names t) (a_new_names a) && is_nil (a_split a) && is_nil (a_reversed a)
       && is_nil (a_merge a) && is_nil (a_cut a) = false ->
    exists r re,
      edge_operator E t a = Ok r /\ wf_tensor r /\ t_names r = a_new_names a /\
      Forall2 (group_edge E t a) (groups a) re /\
      t_edges r = prune_from (t_blocks r) 0 re /\
      map fst (t_blocks r) = map fst (block_list (maps_of re)) /\
      (forall pos p, assigns pos (names2 t a) p -> in_range (maps_of (edges2 t a)) p -> ssum (map fst p) = szero ->
         valid_pt (t_core r) (map (merged_coord (legs t a) (a_merge a) pos) (a_new_names a)) /\
         (kept t a (map fst p) = true ->
            exists v, elem (t_core t) (map (src_coord t a pos) (t_names t)) = Some v /\
              valid_pt (t_core t) (map (src_coord t a pos) (t_names t)) /\
              elem (t_core r) (map (merged_coord (legs t a) (a_merge a) pos) (a_new_names a)) = Some (signed ropp (sign_number t a pos) v)) /\
         (kept t a (map fst p) = false -> is_nosym = false ->
            elem (t_core r) (map (merged_coord (legs t a) (a_merge a) pos) (a_new_names a)) = Some rzero)) /\
      (forall x, valid_pt (t_core r) x -> exists pos p, assigns pos (names2 t a) p /\ in_range (maps_of (edges2 t a)) p /\
         ssum (map fst p) = szero /\ x = map (merged_coord (legs t a) (a_merge a) pos) (a_new_names a)) /\
      (forall pos1 pos2 p1 p2, assigns pos1 (names2 t a) p1 -> assigns pos2 (names2 t a) p2 ->
         in_range (maps_of (edges2 t a)) p1 -> in_range (maps_of (edges2 t a)) p2 ->
         map (merged_coord (legs t a) (a_merge a) pos1) (a_new_names a) = map (merged_coord (legs t a) (a_merge a) pos2) (a_new_names a) ->
         p1 = p2).
  Proof.
    intros E t a Hpre Hren Hslow. rewrite <- (named_names1 t a Hren) in Hslow.
    destruct (edge_operator_ok E t a Hpre Hslow) as [r [d2s [mr [H1 [Hplans [Hnames [Hmr [Hmm [Hwf [Hn [He [Hb [Hv [Hs [Hk Hz]]]]]]]]]]]]]]].
    exists r, (result_edges mr). split; [exact H1|]. split; [exact Hwf|]. split; [exact Hn|]. split; [|split; [exact He|split; [exact Hb|]]].
    { unfold result_edges. apply Forall2_map_r. eapply Forall2_imp; [|exact (stage_groups E t a Hpre d2s Hplans Hnames mr Hmr Hmm)]. cbv beta. intros l x [_ H]. exact H. }
    rewrite (flat_maps t a) in *. split; [|split].
    - intros pos p Hpos Hr Hc.
      rewrite <- (src_pt_named E t a Hpre Hren pos p Hpos), <- (dst_pt_named E t a Hpre pos p Hpos d2s Hplans Hnames).
      split; [now apply Hv|]. split.
      + intro K. destruct (Hk p Hr Hc K) as [v [V1 [V2 V3]]]. exists v. split; [exact V1|]. split; [exact V2|]. rewrite V3. f_equal.
        rewrite (eo_parity_named E t a Hpre Hren pos p Hpos d2s Hplans Hnames mr Hmr Hmm). reflexivity.
      + intros K Ns. now apply Hz.
    - intros x Hx. destruct (Hs x Hx) as [p [Hr [Hc Ex]]]. 
      assert (HL : length (names2 t a) = length p) by (rewrite (in_range_length _ _ Hr); unfold maps_of; rewrite map_length; symmetry; apply len_edges2).
      exists (combine (names2 t a) p), p.
      assert (Hpos : assigns (combine (names2 t a) p) (names2 t a) p) by (apply assigns_combine; [apply Hpre|exact HL]).
      split; [exact Hpos|]. split; [exact Hr|]. split; [exact Hc|].
      rewrite Ex. apply (dst_pt_named E t a Hpre _ p Hpos d2s Hplans Hnames).
    - intros pos1 pos2 p1 p2 A1 A2 R1 R2 Eq.
      rewrite <- (dst_pt_named E t a Hpre pos1 p1 A1 d2s Hplans Hnames), <- (dst_pt_named E t a Hpre pos2 p2 A2 d2s Hplans Hnames) in Eq.
      unfold dst_pt in Eq.
      pose proof (gmd_sorted E t a Hpre d2s) as Gs.
      assert (HL : forall p, length (permuted (szero, 0) d2s p) = length (concat (gmd t a d2s))).
      { intro p. rewrite (concat_gmd E t a Hpre d2s Hplans). now rewrite !permuted_length. }
      assert (HG : forall p, in_range (maps_of (edges2 t a)) p -> Forall2 in_range (gmd t a d2s) (group_by (gmd t a d2s) (permuted (szero, 0) d2s p))).
      { intros p Hr. apply in_range_concat; [apply HL|].
        rewrite (concat_gmd E t a Hpre d2s Hplans). rewrite (flat_maps t a). apply in_range_permuted; [exact Hr|].
        intros j Hj. unfold maps_of. rewrite map_length, len_edges2. exact (plan_in_bound _ _ _ Hplans j Hj). }
      apply (fuses_inj _ _ _ Gs (HG _ R1) (HG _ R2)) in Eq. 
      apply (f_equal (@concat _)) in Eq. rewrite !concat_group_by in Eq by apply HL.
      assert (HLp : forall p, in_range (maps_of (edges2 t a)) p -> length p = length (names2 t a)).
      { intros p Hr. rewrite (in_range_length _ _ Hr). unfold maps_of. rewrite map_length. apply len_edges2. }
      eapply permuted_inj; [exact Hplans|now apply HLp|now apply HLp|exact Eq].
  Qed.

  (** ** blocks of the result *)
  Lemma in_range_named : forall (m : nat -> list entry) (c : nat -> entry) names,
    in_range (map m names) (map c names) <-> forall n, In n names -> exists d, In (fst (c n), d) (m n) /\ snd (c n) < d.
  Proof.
    intros m c names. induction names as [|n names IH]; cbn [map].
    - split; [intros _ n []|constructor].
    - split.
      + intros H x Hx. inversion H as [|ma ms s i d pt Hin Hi Hrest E1 E2]. subst. destruct Hx as [->|Hx].
        * exists d. match goal with HH : (_, _) = c x |- _ => rewrite <- HH end. cbn [fst snd]. auto.
        * apply IH; auto.
      + intro H. destruct (H n (or_introl eq_refl)) as [d [H1 H2]]. destruct (c n) as [s i] eqn:Ec. cbn [fst snd] in *.
        econstructor; eauto. apply IH. intros x Hx. apply H. now right.
  Qed.
  Lemma dims_of_named : forall (m : nat -> list entry) (k : nat -> S) names,
    (forall n, In n names -> mmem (k n) (m n) = true) -> exists ds, dims_of (map m names) (map k names) = Some ds.
  Proof.
    intros m k names. induction names as [|n names IH]; intro H; [exists []; reflexivity|]. cbn [map dims_of].
    destruct IH as [ds ->]; [intros; apply H; now right|]. specialize (H n (or_introl eq_refl)). unfold mmem in H.
    destruct (mfind (k n) (m n)) as [d|]; [|discriminate]. eauto.
  Qed.
  Lemma dims_of_mem : forall (maps : list (list entry)) key ds, dims_of maps key = Some ds -> Forall2 (fun m s => mmem s m = true) maps key.
  Proof.
    induction maps as [|m maps IH]; intros [|s key] ds H; simpl in H; try discriminate; constructor.
    - unfold mmem. destruct (mfind s m); [reflexivity|discriminate].
    - destruct (mfind s m); [|discriminate]. destruct (dims_of maps key) eqn:E1; [|discriminate]. eauto.
  Qed.

  Lemma result_key : forall (E : @env R) (t : tensor S R) (a : @eo_args S) re (blocks : list (list S * list R)), eo_pre E t a ->
    Forall2 (group_edge E t a) (groups a) re -> map fst blocks = map fst (block_list (maps_of re)) ->
    forall kp : nat -> S, (forall n, In n (names2 t a) -> mmem (kp n) (emap (edge_named (legs t a) n)) = true) ->
    ssum (map kp (names2 t a)) = szero ->
    In (map (fun l => ssum (map kp l)) (groups a)) (map fst blocks) /\
    Forall2 (fun l e => mmem (ssum (map kp l)) (emap e) = true) (groups a) (prune_from blocks 0 re).
  Proof.
    intros E t a re blocks Hpre Hg Hb kp Hk Hz.
    assert (Hincl : incl (concat (groups a)) (names2 t a)).
    { intros n Hn. eapply Permutation_in; [apply Permutation_sym; apply Hpre|exact Hn]. }
    assert (HD : exists ds, dims_of (maps_of re) (map (fun l => ssum (map kp l)) (groups a)) = Some ds).
    { revert Hincl. clear Hb. induction Hg as [|l e gs re H Hg IH]; intro Hincl; [exists []; reflexivity|]. cbn [maps_of map dims_of].
      destruct IH as [ds Hds]; [intros n Hn; apply Hincl; cbn [concat]; apply in_or_app; now right|]. unfold maps_of in Hds. rewrite Hds.
      destruct (ge_map _ _ _ _ _ H) as [_ HM]. rewrite HM.
      destruct (dims_of_named (fun n => emap (edge_named (legs t a) n)) kp l) as [ds' Hds'].
      { intros n Hn. apply Hk. apply Hincl. cbn [concat]. apply in_or_app. now left. }
      rewrite (tuple_exists _ _ _ Hds'). eauto. }
    destruct HD as [ds HD].
    assert (HS : sorted_maps (maps_of re)).
    { clear - Hg. unfold sorted_maps, maps_of. apply Forall_map. induction Hg as [|l e gs re H Hg IH]; constructor; auto. apply (ge_map _ _ _ _ _ H). }
    assert (HI : In (map (fun l => ssum (map kp l)) (groups a)) (map fst blocks)).
    { rewrite Hb. apply in_map_iff. exists (map (fun l => ssum (map kp l)) (groups a), prod ds). split; [reflexivity|].
      apply in_block_list. split.
      - apply dims_of_choice; eauto.
      - transitivity (ssum (map kp (names2 t a))); [|exact Hz]. rewrite <- (map_map (map kp) ssum), ssum_concat, <- concat_map.
        apply ssum_perm. apply Permutation_map. apply Permutation_sym. apply Hpre. }
    split; [exact HI|]. rewrite <- (prune_dims_block blocks re _ HI) in HD. apply dims_of_mem in HD.
    unfold maps_of in HD. apply Forall2_map_l_inv in HD. apply Forall2_map_r_inv in HD.
    clear - HD. revert HD. generalize (prune_from blocks 0 re). induction (groups a) as [|l gs IH]; intros es H; inversion H; subst; constructor; auto.
  Qed.
  (** the result edges, by group *)
  Lemma pruned_edges : forall (blocks : list (list S * list R)) es i, Forall2 (fun e e' => earrow e' = earrow e /\
     (forall s d, mfind s (emap e') = Some d -> mfind s (emap e) = Some d)) es (prune_from blocks i es).
  Proof.
    intros blocks es. induction es as [|e es IH]; intro i; cbn [prune_from]; constructor; auto. cbn [earrow emap]. split; auto.
    intros s d H. clear IH. induction (emap e) as [|[s' d'] m IH]; [discriminate|]. cbn [filter fst] in H. cbn [mfind].
    destruct (used_in blocks i s') eqn:U.
    - cbn [mfind] in H. destruct (eqb s s'); auto.
    - destruct (eqb s s') eqn:E1; [|auto]. apply eqb_eq in E1. subst s'. exfalso. clear IH.
      induction m as [|[s2 d2] m IH]; [discriminate|]. cbn [filter fst] in H. destruct (used_in blocks i s2) eqn:U2; [|now apply IH].
      cbn [mfind] in H. destruct (eqb s s2) eqn:E2; [apply eqb_eq in E2; congruence|now apply IH].
  Qed.
End Named.
