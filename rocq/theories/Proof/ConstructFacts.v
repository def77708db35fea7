(** Facts behind C02, C03, C04, C50. *)
From Coq Require Import String List Bool Arith Lia Sorted ZArith.
From Verif Require Import Base.Outcome Base.SMap Model.Symmetry Model.Edge Model.Core
  Spec.Blocks Proof.SymmetryFacts Proof.LoopFacts Proof.CoreFacts Proof.ElemFacts.
Import ListNotations.

Lemma has_dup_false : forall l, has_dup l = false <-> NoDup l.
Proof.
  induction l as [|a l IH]; simpl; split; intro H.
  - constructor.
  - reflexivity.
  - apply orb_false_elim in H as [H1 H2]. constructor; [|now apply IH].
    intro Hin. assert (existsb (Nat.eqb a) l = true) by (apply existsb_exists; exists a; split; auto; apply Nat.eqb_refl).
    congruence.
  - inversion H; subst. apply orb_false_intro; [|now apply IH].
    destruct (existsb (Nat.eqb a) l) eqn:E; auto. apply existsb_exists in E as [x [Hx Hx2]].
    apply Nat.eqb_eq in Hx2. subst. contradiction.
Qed.

Section Construct.
  Context {S R : Type} {SS : Sym S} {SL : SymLaws S} {RR : Scalar R}.

  Lemma check_valid_name_ok : forall names n, NoDup names -> length names = n -> check_valid_name names n = Ok tt.
  Proof.
    intros names n Hn <-. unfold check_valid_name. rewrite Nat.eqb_refl. simpl.
    apply has_dup_false in Hn. now rewrite Hn.
  Qed.

  Lemma make_tensor_ok : forall (junk : R) names es ar, sorted_maps (maps_of es) -> NoDup names ->
    length names = length es ->
    exists t, make_tensor junk names es ar = Ok t /\ wf_tensor t /\ t_names t = names /\
      t_blocks t = junk_blocks junk (block_list (maps_of es)) /\
      t_edges t = prune_from (junk_blocks junk (block_list (maps_of es))) 0
                    (if is_fermi && ar then map possible_reverse es else es).
  Proof.
    intros junk names es ar Hs Hn HL.
    destruct (make_core_wf junk es ar Hs) as [c [E W]].
    pose proof (make_core_eq junk es ar Hs) as E2. rewrite E2 in E. injection E as <-.
    unfold make_tensor. rewrite E2. simpl. rewrite check_valid_name_ok; auto.
    - simpl. eexists. split; [reflexivity|]. split; [constructor; auto|auto].
      unfold t_edges. simpl. rewrite prune_length. destruct (_ && _); rewrite ?map_length; auto.
    - rewrite prune_length. destruct (_ && _); rewrite ?map_length; auto.
  Qed.

  Lemma construct_blocks : forall (junk : R) names es ar, sorted_maps (maps_of es) -> NoDup names ->
    length names = length es ->
    exists t, make_tensor junk names es ar = Ok t /\ t_names t = names /\
      StronglySorted (fun a b => ltb a b = true) (map fst (t_blocks t)) /\
      forall key b, In (key, b) (t_blocks t) <->
        exists n, choice (map emap es) key n /\ ssum key = szero /\ b = repeat junk n.
  Proof.
    intros junk names es ar Hs Hn HL.
    destruct (make_tensor_ok junk names es ar Hs Hn HL) as [t [E [W [N [B _]]]]].
    exists t. repeat split; auto.
    - pose proof (wf_blocks_sorted _ (wf_tcore t W)) as H. unfold msorted in H. unfold t_blocks.
      induction H; constructor; auto. rewrite Forall_forall in *. intros x Hx. unfold ltb. now rewrite (H0 x Hx).
    - intro H. rewrite B in H. apply in_map_iff in H as [[k n] [E2 Hin]]. injection E2 as <- <-.
      apply in_block_list in Hin as [C Z]. eauto.
    - intros [n [C [Z ->]]]. rewrite B. apply in_map_iff. exists (key, n). split; auto.
      apply in_block_list. auto.
  Qed.

  Lemma construct_bad_names : forall (junk : R) names es ar, sorted_maps (maps_of es) ->
    ~ (NoDup names /\ length names = length es) ->
    exists msg, make_tensor junk names es ar = Throw (RuntimeError msg).
  Proof.
    intros junk names es ar Hs Hbad. unfold make_tensor. rewrite (make_core_eq junk es ar Hs). simpl.
    unfold check_valid_name. rewrite prune_length.
    assert (HL : length (if is_fermi && ar then map possible_reverse es else es) = length es)
      by (destruct (_ && _); rewrite ?map_length; auto).
    rewrite HL. destruct (Nat.eqb_spec (length names) (length es)) as [Hl|Hl]; simpl; [|unfold tat_error; eauto].
    destruct (has_dup names) eqn:D; simpl; [unfold tat_error; eauto|].
    exfalso. apply Hbad. split; auto. now apply has_dup_false.
  Qed.

  (** FermiEdge::possible_reverse flips the arrow iff some charge has a negative fermion number *)
  Definition negative_fermion (e : edge S) : Prop := exists s d, In (s, d) (emap e) /\ (sfermi s < 0)%Z.
  Lemma possible_reverse_spec : forall e : edge S,
    emap (possible_reverse e) = emap e /\
    (negative_fermion e -> earrow (possible_reverse e) = negb (earrow e)) /\
    (~ negative_fermion e -> earrow (possible_reverse e) = earrow e).
  Proof.
    intro e. unfold possible_reverse.
    destruct (existsb _ (emap e)) eqn:E; simpl; repeat split; auto.
    - intro Hn. exfalso. apply Hn. apply existsb_exists in E as [[s d] [Hin Hlt]].
      apply Z.ltb_lt in Hlt. exists s, d. auto.
    - intros [s [d [Hin Hlt]]]. exfalso. apply Z.ltb_lt in Hlt.
      assert (existsb (fun sd : S * nat => Z.ltb (sfermi (fst sd)) 0) (emap e) = true)
        by (apply existsb_exists; exists (s, d); auto). congruence.
  Qed.

  (** a charge of edge i occurs in a charge-conserving choice *)
  Definition charge_used (es : list (edge S)) (i : nat) (s : S) : Prop :=
    exists key n, choice (map emap es) key n /\ ssum key = szero /\ nth_error key i = Some s.

  Lemma construct_prunes : forall (junk : R) names es ar t, sorted_maps (maps_of es) ->
    make_tensor junk names es ar = Ok t ->
    length (t_edges t) = length es /\
    forall i e, nth_error es i = Some e -> exists e', nth_error (t_edges t) i = Some e' /\
      msorted (emap e') /\
      earrow e' = earrow (if is_fermi && ar then possible_reverse e else e) /\
      forall s d, In (s, d) (emap e') <-> In (s, d) (emap e) /\ charge_used es i s.
  Proof.
    intros junk names es ar t Hs E. unfold make_tensor in E. rewrite (make_core_eq junk es ar Hs) in E. simpl in E.
    destruct (check_valid_name _ _); simpl in E; try discriminate. injection E as <-.
    unfold t_edges. simpl. split.
    - rewrite prune_length. destruct (_ && _); rewrite ?map_length; auto.
    - intros i e Ee. set (es' := if is_fermi && ar then map possible_reverse es else es).
      set (e0 := if is_fermi && ar then possible_reverse e else e).
      assert (Ee' : nth_error es' i = Some e0).
      { unfold es', e0. destruct (_ && _); auto. now apply map_nth_error. }
      assert (Em : emap e0 = emap e).
      { unfold e0. destruct (_ && _); auto. now apply possible_reverse_spec. }
      eexists. split; [apply prune_nth; exact Ee'|]. simpl.
      assert (Hse : msorted (emap e)).
      { unfold sorted_maps, maps_of in Hs. rewrite Forall_map, Forall_forall in Hs.
        apply Hs. eapply nth_error_In; eauto. }
      repeat split.
      + apply msorted_filter. now rewrite Em.
      + apply filter_In in H as [H _]. now rewrite Em in H.
      + apply filter_In in H as [_ H]. simpl in H. apply used_in_true in H as [key [Hk Hn]].
        rewrite junk_keys in Hk. apply in_map_iff in Hk as [[k n] [<- Hk]]. apply in_block_list in Hk as [C Z].
        exists k, n. auto.
      + intros [Hin [key [n [C [Z Hn]]]]]. apply filter_In. split; [now rewrite Em|]. simpl.
        apply used_in_true. exists key. split; auto. rewrite junk_keys.
        apply in_map_iff. exists (key, n). split; auto. apply in_block_list. auto.
  Qed.

  Lemma prune_id : forall (blocks : list (list S * list R)) es i,
    (forall j e s, nth_error es j = Some e -> In s (map fst (emap e)) -> used_in blocks (i + j) s = true) ->
    prune_from blocks i es = es.
  Proof.
    induction es as [|e es IH]; intros i H; simpl; auto. f_equal.
    - destruct e as [ar m]. simpl. f_equal. pose proof (H 0 (mkEdge ar m)) as H0. simpl in H0.
      assert (HA : forall sd, In sd m -> used_in blocks i (fst sd) = true).
      { intros sd Hin. specialize (H0 (fst sd) eq_refl). rewrite Nat.add_0_r in H0. apply H0. now apply in_map. }
      clear - HA. induction m as [|sd m IHm]; simpl; auto.
      rewrite (HA sd) by (now left). f_equal. apply IHm. intros; apply HA; now right.
    - apply (IH (Datatypes.S i)). intros j e0 s E Hin. replace (Datatypes.S i + j) with (i + Datatypes.S j) by lia.
      eapply H; eauto.
  Qed.

  Lemma wf_prune_id : forall (c : core S R) (blocks : list (list S * list R)), wf_core c ->
    map fst blocks = map fst (c_blocks c) -> prune_from blocks 0 (c_edges c) = c_edges c.
  Proof.
    intros c blocks W Hk. apply prune_id. intros j e s E Hin. apply used_in_true. rewrite Hk.
    simpl. eapply wf_pruned; eauto.
  Qed.

  Lemma same_shape_ok : forall (junk : R) (t : tensor S R), wf_tensor t ->
    exists t', same_shape junk t = Ok t' /\ wf_tensor t' /\ t_names t' = t_names t /\ t_edges t' = t_edges t /\
      t_blocks t' = junk_blocks junk (shape (t_blocks t)).
  Proof.
    intros junk t W. pose proof (wf_tcore t W) as Wc. unfold same_shape.
    destruct (make_tensor_ok junk (t_names t) (t_edges t) false (wf_maps _ Wc) (wf_nodup t W) (wf_rank t W))
      as [t' [E [W' [N [B ED]]]]].
    exists t'. repeat split; try apply W'; auto.
    - rewrite ED, andb_false_r. apply (wf_prune_id (t_core t)); auto.
      rewrite junk_keys. unfold t_edges. rewrite <- (wf_shape _ Wc). apply shape_keys.
    - rewrite B. f_equal. symmetry. apply (wf_shape _ Wc).
  Qed.

  Lemma construct_idempotent : forall (junk junk' : R) names es ar t, sorted_maps (maps_of es) ->
    make_tensor junk names es ar = Ok t ->
    exists t', same_shape junk' t = Ok t' /\ t_names t' = t_names t /\ t_edges t' = t_edges t /\
      map (fun kb => (fst kb, length (snd kb))) (t_blocks t') = map (fun kb => (fst kb, length (snd kb))) (t_blocks t).
  Proof.
    intros junk junk' names es ar t Hs E.
    assert (HN : NoDup names /\ length names = length es).
    { destruct (check_valid_name names (length es)) eqn:C.
      - unfold check_valid_name in C. destruct (Nat.eqb_spec (length names) (length es)); [|discriminate].
        destruct (has_dup names) eqn:D; [discriminate|]. split; auto. now apply has_dup_false.
      - exfalso. unfold make_tensor in E. rewrite (make_core_eq junk es ar Hs) in E. simpl in E.
        rewrite prune_length in E.
        replace (length (if is_fermi && ar then map possible_reverse es else es)) with (length es) in E
          by (destruct (_ && _); rewrite ?map_length; auto).
        rewrite C in E. discriminate.
      - unfold check_valid_name in C. destruct (negb _); [discriminate|]. destruct (has_dup _); discriminate.
      - unfold check_valid_name in C. destruct (negb _); [discriminate|]. destruct (has_dup _); discriminate. }
    destruct HN as [HN HL].
    destruct (make_tensor_ok junk names es ar Hs HN HL) as [t0 [E0 [W [N _]]]].
    rewrite E in E0. injection E0 as <-.
    destruct (same_shape_ok junk' t W) as [t' [E' [W' [N' [ED B]]]]].
    exists t'. repeat split; auto. fold (shape (t_blocks t')). rewrite B. apply shape_junk.
  Qed.

  (** ** addresses *)
  Lemma address_valid : forall (t : tensor S R) pos pt, wf_tensor t -> assigns pos (t_names t) pt ->
    valid_pt (t_core t) pt ->
    exists off b, get_block_and_offset pos (t_names t) (t_core t) = Ok (map fst pt, off) /\
      In (map fst pt, b) (t_blocks t) /\ off < length b.
  Proof.
    intros t pos pt W Ha Hv. destruct (address_ok t pos pt W Ha (proj1 Hv)) as [ds [Hd [Hlt Hg]]].
    destruct (valid_elem _ _ (wf_tcore t W) Hv) as [ds' [b [v [Hd' [_ [Hb [HL [Hn He]]]]]]]].
    exists (row_major ds (map snd pt)), b. repeat split; auto.
    - now apply mfind_In.
    - unfold t_edges in Hd. rewrite Hd in Hd'. injection Hd' as <-. rewrite HL. now apply row_major_lt.
  Qed.

  Lemma address_injective : forall (t : tensor S R) pos1 pos2 pt1 pt2 a, wf_tensor t ->
    assigns pos1 (t_names t) pt1 -> assigns pos2 (t_names t) pt2 ->
    in_range (maps_of (t_edges t)) pt1 -> in_range (maps_of (t_edges t)) pt2 ->
    get_block_and_offset pos1 (t_names t) (t_core t) = Ok a ->
    get_block_and_offset pos2 (t_names t) (t_core t) = Ok a -> pt1 = pt2.
  Proof.
    intros t pos1 pos2 pt1 pt2 a W A1 A2 R1 R2 E1 E2.
    destruct (address_ok t pos1 pt1 W A1 R1) as [ds1 [D1 [L1 G1]]].
    destruct (address_ok t pos2 pt2 W A2 R2) as [ds2 [D2 [L2 G2]]].
    rewrite E1 in G1. rewrite E2 in G2. injection G1 as ->. injection G2 as Ek Eo.
    rewrite Ek in D1. rewrite D1 in D2. injection D2 as <-.
    apply pt_ext; auto. eapply row_major_inj; eauto.
  Qed.

  Lemma address_surjective : forall (t : tensor S R) key b off, wf_tensor t ->
    In (key, b) (t_blocks t) -> off < length b ->
    exists pt, valid_pt (t_core t) pt /\
      forall pos, assigns pos (t_names t) pt -> get_block_and_offset pos (t_names t) (t_core t) = Ok (key, off).
  Proof.
    intros t key b off W Hin Hoff.
    destruct (cell_coordinate _ _ _ _ (wf_tcore t W) Hin Hoff) as [pt [ds [Hv [Ek [Hd Er]]]]].
    exists pt. split; auto. intros pos Ha.
    destruct (address_ok t pos pt W Ha (proj1 Hv)) as [ds' [D [_ G]]].
    rewrite G. unfold t_edges in D. rewrite Ek, Hd in D. injection D as <-. now rewrite Ek, Er.
  Qed.

  Lemma write_read : forall (t : tensor S R) pos pt v, wf_tensor t ->
    assigns pos (t_names t) pt -> valid_pt (t_core t) pt ->
    exists t', set_at t pos v = Ok t' /\ const_at t' pos = Ok v /\ t_names t' = t_names t /\ t_edges t' = t_edges t /\
      forall pos' pt', assigns pos' (t_names t) pt' -> valid_pt (t_core t) pt' -> pt' <> pt ->
        const_at t' pos' = const_at t pos'.
  Proof.
    intros t pos pt v W Ha Hv.
    destruct (set_at_ok t pos pt v W Ha Hv) as [t' [E [W' [N [ED [Es Eo]]]]]].
    assert (HV : forall p, valid_pt (t_core t') p <-> valid_pt (t_core t) p).
    { intro p. unfold valid_pt. unfold t_edges in ED. now rewrite ED. }
    exists t'. repeat split; auto.
    - destruct (const_at_elem t' pos pt W') as [v' [E1 E2]].
      + now rewrite N.
      + now apply HV.
      + rewrite Es in E1. injection E1 as <-. exact E2.
    - intros pos' pt' Ha' Hv' Hne.
      destruct (const_at_elem t' pos' pt' W') as [v' [E1 E2]]; [now rewrite N|now apply HV|].
      destruct (const_at_elem t pos' pt' W Ha' Hv') as [v2 [E3 E4]].
      rewrite (Eo pt' Hv' Hne), E3 in E1. injection E1 as <-. now rewrite E2, E4.
  Qed.
End Construct.
