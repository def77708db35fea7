(** Facts behind C50 and the meaning of well-formedness. *)
From Coq Require Import String List Bool Arith Lia Sorted ZArith.
From Verif Require Import Base.Outcome Base.SMap Model.Symmetry Model.Edge Model.Core
  Spec.Blocks Proof.SymmetryFacts Proof.LoopFacts Proof.CoreFacts Proof.ElemFacts Proof.ConstructFacts.
Import ListNotations.

Section Address.
  Context {S R : Type} {SS : Sym S} {SL : SymLaws S} {RR : Scalar R}.

  Lemma wf_tensor_meaning : forall t : tensor S R, wf_tensor t <->
    NoDup (t_names t) /\ length (t_names t) = length (t_edges t) /\
    (forall e, In e (t_edges t) -> msorted (emap e)) /\
    msorted (t_blocks t) /\
    (forall key n, (exists b, In (key, b) (t_blocks t) /\ length b = n) <->
                   choice (map emap (t_edges t)) key n /\ ssum key = szero) /\
    (forall i e s, nth_error (t_edges t) i = Some e -> In s (map fst (emap e)) ->
       exists key, In key (map fst (t_blocks t)) /\ nth_error key i = Some s).
  Proof.
    intro t. split.
    - intros [[Hm Hs Hp] Hn Hr]. repeat split; auto.
      + intros e He. unfold sorted_maps, maps_of in Hm. rewrite Forall_map, Forall_forall in Hm. auto.
      + apply wf_blocks_sorted. constructor; auto.
      + destruct H as [b [Hin <-]].
        assert (HI : In (key, length b) (shape (c_blocks (t_core t)))) by (apply in_map_iff; exists (key, b); auto).
        rewrite Hs in HI. now apply in_block_list in HI.
      + destruct H as [b [Hin <-]].
        assert (HI : In (key, length b) (shape (c_blocks (t_core t)))) by (apply in_map_iff; exists (key, b); auto).
        rewrite Hs in HI. now apply in_block_list in HI.
      + intros [C Z]. assert (HI : In (key, n) (block_list (maps_of (c_edges (t_core t))))) by (apply in_block_list; auto).
        rewrite <- Hs in HI. apply in_map_iff in HI as [[k b] [E HI]]. injection E as -> <-. eauto.
    - intros [Hn [Hr [Hm [Hs [Hb Hp]]]]].
      assert (HM : sorted_maps (maps_of (c_edges (t_core t)))).
      { unfold sorted_maps, maps_of. rewrite Forall_map, Forall_forall. auto. }
      constructor; auto. constructor; auto.
      apply msorted_In_ext with (OK := Ord_list S).
      + apply OrdLaws_list. typeclasses eauto.
      + unfold msorted. rewrite shape_keys. exact Hs.
      + now apply block_list_sorted.
      + intros key n. rewrite in_block_list, <- Hb. unfold shape. rewrite in_map_iff. split.
        * intros [[k b] [E HI]]. injection E as <- <-. eauto.
        * intros [b [HI <-]]. exists (key, b). auto.
  Qed.

  (** reading with a name missing from the coordinates is reported *)
  Lemma missing_name_throws : forall (t : tensor S R) (pos : position), wf_tensor t ->
    (forall n s i, mfind n pos = Some (s, i) -> forall k e, nth_error (t_names t) k = Some n ->
        nth_error (t_edges t) k = Some e -> exists d, In (s, d) (emap e)) ->
    (exists n, In n (t_names t) /\ mfind n pos = None) ->
    exists msg, const_at t pos = Throw (RuntimeError msg).
  Proof.
    intros t pos W Hch [n [Hin Hn]]. unfold const_at, get_block_and_offset.
    pose proof (wf_rank t W) as HL. pose proof (wf_maps _ (wf_tcore t W)) as Hm. unfold t_edges in *.
    revert Hin HL Hch Hm. clear W. generalize (c_edges (t_core t)) as es. generalize (t_names t) as ns.
    induction ns as [|n0 ns IH]; intros es Hin HL Hch Hm; [destruct Hin|].
    destruct es as [|e es]; [discriminate|]. simpl.
    destruct (mfind n0 pos) as [[s i]|] eqn:E0; [|unfold tat_error; simpl; eauto].
    destruct (Hch n0 s i E0 0 e eq_refl eq_refl) as [d Hd].
    inversion Hm as [|? ? Hm1 Hm2]; subst.
    assert (E : (if is_nosym then get_or_ub (option_map snd (hd_error (emap e))) else at_or_throw (mfind s (emap e))) = Ok d).
    { destruct is_nosym eqn:N.
      - rewrite (nosym_map_one N _ _ _ Hm1 Hd). reflexivity.
      - rewrite (In_mfind _ _ _ Hm1 Hd). reflexivity. }
    rewrite E. simpl.
    destruct (IH es) as [msg Hmsg].
    - destruct Hin as [->|Hin]; [congruence|auto].
    - simpl in HL. lia.
    - intros n1 s1 i1 E1 k e1 K1 K2. apply (Hch n1 s1 i1 E1 (Datatypes.S k) e1); auto.
    - exact Hm2.
    - exists msg. match goal with |- context [mapM ?f ?l] => destruct (mapM f l) eqn:EM end.
      + exfalso. simpl in Hmsg. unfold find_block in Hmsg.
        destruct is_nosym; [destruct (c_blocks (t_core t)) as [|[? ?] ?] | destruct (mfind _ (c_blocks _))];
          simpl in Hmsg; try discriminate; destruct (nth_error _ _); discriminate.
      + exact Hmsg.
      + discriminate.
      + discriminate.
  Qed.

  (** reading at a charge the edge does not have is reported (symmetric tensors) *)
  Lemma unknown_charge_throws : forall (t : tensor S R) pos pt, wf_tensor t -> is_nosym = false ->
    assigns pos (t_names t) pt ->
    (exists k e s i, nth_error (t_edges t) k = Some e /\ nth_error pt k = Some (s, i) /\ ~ In s (map fst (emap e))) ->
    const_at t pos = Throw OutOfRange.
  Proof.
    intros t pos pt W N Ha [k [e [s [i [Ek [Ep Hs]]]]]]. unfold const_at, get_block_and_offset.
    match goal with |- context [mapM ?f ?l] => assert (HT : mapM f l = Throw OutOfRange) end.
    { pose proof (wf_rank t W) as HL. unfold t_edges in *. revert pt k Ha Ek Ep HL.
      generalize (c_edges (t_core t)) as es. generalize (t_names t) as ns. clear W.
      induction ns as [|n0 ns IH]; intros es pt k Ha Ek Ep HL.
      - destruct es; [|discriminate]. destruct k; discriminate.
      - destruct es as [|e0 es]; [discriminate|]. destruct pt as [|[s0 i0] pt]; [discriminate|].
        unfold assigns in Ha. simpl in Ha. injection Ha as H0 Ha. simpl. rewrite H0, N.
        destruct k as [|k]; simpl in Ek, Ep.
        + injection Ek as ->. injection Ep as -> ->. apply mfind_None in Hs. rewrite Hs. reflexivity.
        + destruct (mfind s0 (emap e0)); simpl; [|reflexivity].
          specialize (IH es pt k Ha Ek Ep). rewrite N in IH. rewrite IH by (simpl in HL; lia). reflexivity. }
    rewrite HT. reflexivity.
  Qed.
End Address.
