(** Element-wise operations. *)
From Coq Require Import String List Bool Arith Lia Sorted Permutation.
From Verif Require Import Base.Outcome Base.SMap Model.Symmetry Model.Edge Model.Core Model.EdgeOperator Model.Elementwise
  Spec.Blocks Spec.Sign Spec.Relabel Spec.Values Proof.SymmetryFacts Proof.LoopFacts Proof.CoreFacts Proof.ConstructFacts Proof.ElemFacts
  Proof.AddressFacts Proof.TransposeTensor Proof.SignFacts Proof.TransposeNames Proof.NamedOperator.
Import ListNotations.

Lemma mapM_ex : forall A B (f : A -> res B) (P : A -> B -> Prop) l, (forall a, In a l -> exists b, f a = Ok b /\ P a b) ->
  exists l', mapM f l = Ok l' /\ Forall2 P l l'.
Proof.
  intros A B f P l. induction l as [|a l IH]; intro H; [exists []; split; [reflexivity|constructor]|].
  destruct (H a (or_introl eq_refl)) as [b [E1 Pb]]. destruct IH as [l' [E2 Pl]]; [intros; apply H; now right|].
  exists (b :: l'). split; [|now constructor]. cbn [mapM]. rewrite E1. cbn [bind]. now rewrite E2.
Qed.
Lemma names_eqb_eq : forall l1 l2, names_eqb l1 l2 = true <-> l1 = l2.
Proof.
  unfold names_eqb. induction l1 as [|a l1 IH]; intros [|b l2]; cbn; split; intro H; try discriminate; try reflexivity.
  - apply andb_true_iff in H as [H1 H2]. apply andb_true_iff in H2 as [H2 H3]. apply Nat.eqb_eq in H2. subst. f_equal. apply IH. rewrite H3. cbn in H1. now rewrite H1.
  - injection H as -> ->. pose proof (proj2 (IH l2) eq_refl) as K. apply andb_true_iff in K as [K1 K2]. now rewrite K1, K2, Nat.eqb_refl.
Qed.

Section Fill.
  Context {S R : Type} {SS : Sym S} {SL : SymLaws S} {RR : Scalar R}.
  Notation entry := (S * nat)%type.

  Lemma shape_In : forall (bs : list (list S * list R)) key b, In (key, b) bs -> In (key, length b) (shape bs).
  Proof. intros bs key b H. unfold shape. apply in_map_iff. exists (key, b). auto. Qed.

  (** a tensor with other data of the same shape *)
  Lemma reshape_wf : forall (t : tensor S R) (bs : list (list S * list R)), wf_tensor t -> shape bs = shape (t_blocks t) ->
    wf_tensor (mkTensor (t_names t) (mkCore (t_edges t) bs)).
  Proof.
    intros t bs W H. constructor; [|apply W|apply W]. apply (shape_wf (t_core t)); [apply W|reflexivity|exact H].
  Qed.

  Lemma fill_blocks_ok : forall (f : list S -> nat -> res (list R)) (r : tensor S R), wf_tensor r ->
    (forall key b, In (key, b) (t_blocks r) -> exists d, f key (length b) = Ok d /\ length d = length b) ->
    exists r', fill_blocks f r = Ok r' /\ wf_tensor r' /\ t_names r' = t_names r /\ t_edges r' = t_edges r /\
      forall key b, mfind key (t_blocks r) = Some b -> exists d, f key (length b) = Ok d /\ length d = length b /\ mfind key (t_blocks r') = Some d.
  Proof.
    intros f r W H. unfold fill_blocks.
    destruct (mapM_ex _ _ (fun kb => bind (f (fst kb) (length (snd kb))) (fun d => Ok (fst kb, d)))
      (fun kb kd => fst kd = fst kb /\ length (snd kd) = length (snd kb) /\ f (fst kb) (length (snd kb)) = Ok (snd kd)) (t_blocks r)) as [bs [E HF]].
    { intros [key b] Hin. destruct (H key b Hin) as [d [Ed Hl]]. exists (key, d). cbn [fst snd]. rewrite Ed. auto. }
    rewrite E. cbn [bind]. eexists. split; [reflexivity|].
    assert (Hs : shape bs = shape (t_blocks r)).
    { clear - HF. induction HF as [|[k b] [k' d] l l' [H1 [H2 _]] HF IH]; [reflexivity|]. unfold shape in *. cbn [map fst snd] in *. now rewrite IH, H1, H2. }
    split; [now apply reshape_wf|]. split; [reflexivity|]. split; [reflexivity|]. cbn [t_blocks t_core c_blocks].
    intros key b Hb. clear - HF Hb SL. induction HF as [|[k b0] [k' d] l l' [H1 [H2 H3]] HF IH]; [discriminate|]. cbn [fst snd mfind t_blocks t_core c_blocks] in *. subst k'.
    destruct (eqb key k) eqn:E; [|auto]. apply eqb_eq in E. subst k. injection Hb as ->. eauto.
  Qed.

  (** a loop over source blocks that writes one block each *)
  Lemma foldM_blocks : forall (step : list (list S * list R) -> list S * list R -> res (list (list S * list R))) (g : list S -> list S)
      (P : list S -> list R -> list R -> Prop) (src dst : list (list S * list R)),
    (forall key b blocks b0, In (key, b) src -> mfind (g key) blocks = Some b0 -> length b0 = length b ->
       exists d, step blocks (key, b) = Ok (mset (g key) d blocks) /\ length d = length b0 /\ P key b d) ->
    NoDup (map g (map fst src)) -> msorted dst ->
    (forall key b, In (key, b) src -> exists b0, mfind (g key) dst = Some b0 /\ length b0 = length b) ->
    exists dst', foldM step src dst = Ok dst' /\ shape dst' = shape dst /\ msorted dst' /\
      (forall key b, In (key, b) src -> exists d, mfind (g key) dst' = Some d /\ P key b d) /\
      (forall k, ~ In k (map g (map fst src)) -> mfind k dst' = mfind k dst).
  Proof.
    intros step g P src. induction src as [|[key b] src IH]; intros dst Hst Hnd Hs Hd.
    - exists dst. repeat split; auto. intros ? ? [].
    - destruct (Hd key b (or_introl eq_refl)) as [b0 [E0 L0]]. destruct (Hst key b dst b0 (or_introl eq_refl) E0 L0) as [d [E1 [L1 P1]]].
      cbn [foldM]. rewrite E1. cbn [bind map fst] in *. inversion Hnd as [|? ? Hni Hnd']; subst.
      destruct (IH (mset (g key) d dst)) as [dst' [F1 [F2 [F3 [F4 F5]]]]]; auto.
      + intros; apply Hst; auto. now right.
      + now apply mset_sorted.
      + intros k2 b2 H2. rewrite mfind_mset_other; [apply Hd; now right|]. intro Eq. apply Hni. rewrite <- Eq. apply in_map. apply (in_map fst) in H2. exact H2.
      + exists dst'. split; auto. split; [|split; auto; split].
        * rewrite F2. apply (mset_shape _ _ b0); auto.
        * intros k2 b2 [H2|H2]; [|auto]. injection H2 as <- <-. exists d. split; auto. rewrite F5 by auto. apply mfind_mset_same.
        * intros k Hk. rewrite F5 by (intro Hx; apply Hk; now right). apply mfind_mset_other. intro Eq. apply Hk. now left.
  Qed.

  Lemma wf_keys_nodup : forall t : tensor S R, wf_tensor t -> NoDup (map fst (t_blocks t)).
  Proof. intros t W. apply msorted_nodup. apply wf_blocks_sorted. apply W. Qed.

  (** what the elements of two tensors of one shape are, block by block *)
  Lemma elem_block : forall (t : tensor S R) pt, wf_tensor t -> valid_pt (t_core t) pt -> exists ds b v,
    dims_of (maps_of (t_edges t)) (map fst pt) = Some ds /\ Forall2 lt (map snd pt) ds /\
    mfind (map fst pt) (t_blocks t) = Some b /\ length b = prod ds /\ row_major ds (map snd pt) < length b /\
    nth_error b (row_major ds (map snd pt)) = Some v /\ forall pos, assigns pos (t_names t) pt -> const_at t pos = Ok v.
  Proof.
    intros t pt W Hv. destruct (valid_elem _ _ (wf_tcore _ W) Hv) as [ds [b [v [H1 [H2 [H3 [H4 [H5 H6]]]]]]]].
    exists ds, b, v. split; auto. split; auto. split; auto. split; auto. split; [rewrite H4; now apply row_major_lt|]. split; auto.
    intros pos Ha. destruct (const_at_elem t pos pt W Ha Hv) as [w [E1 E2]]. rewrite H6 in E1. injection E1 as <-. exact E2.
  Qed.

  (** *** transform and map *)
  Lemma transform_wf : forall (f : R -> R) (t : tensor S R), wf_tensor t -> wf_tensor (transform f t).
  Proof.
    intros f t W. apply reshape_wf; auto. unfold shape. rewrite map_map. apply map_ext. intros [k b]. cbn. now rewrite map_length.
  Qed.
  Lemma mfind_map_val2 : forall (f : list R -> list R) (bs : list (list S * list R)) k,
    mfind k (map (fun kb => (fst kb, f (snd kb))) bs) = option_map f (mfind k bs).
  Proof. intros f bs k. induction bs as [|[k0 b] bs IH]; [reflexivity|]. cbn [map mfind fst snd]. destruct (eqb k k0); auto. Qed.
  Lemma transform_at : forall (f : R -> R) (t : tensor S R) pos pt, wf_tensor t -> assigns pos (t_names t) pt -> valid_pt (t_core t) pt ->
    exists v, const_at t pos = Ok v /\ const_at (transform f t) pos = Ok (f v).
  Proof.
    intros f t pos pt W Ha Hv. destruct (elem_block t pt W Hv) as [ds [b [v [H1 [H2 [H3 [H4 [H5 [H6 H7]]]]]]]]]. exists v. split; [auto|].
    destruct (elem_block (transform f t) pt (transform_wf f t W) Hv) as [ds' [b' [v' [K1 [K2 [K3 [K4 [K5 [K6 K7]]]]]]]]].
    rewrite (K7 pos Ha). f_equal. cbn [transform t_edges t_core c_edges] in K1. fold (t_edges t) in K1. rewrite H1 in K1. injection K1 as <-.
    unfold transform, t_blocks in K3. cbn [t_core c_blocks] in K3. rewrite mfind_map_val2 in K3. fold (t_blocks t) in K3. rewrite H3 in K3. cbn [option_map] in K3. injection K3 as <-.
    rewrite nth_error_map, H6 in K6. cbn in K6. now injection K6 as <-.
  Qed.
  Lemma map_tensor_transform : forall (junk : R) f (t : tensor S R), wf_tensor t -> map_tensor junk f t = Ok (transform f t).
  Proof.
    intros junk f t W. unfold map_tensor. destruct (same_shape_ok junk t W) as [r [E1 [Wr [Hn [He Hb]]]]]. rewrite E1. cbn [bind].
    destruct (foldM_blocks (fun blocks kb => bind (at_or_throw (mfind (fst kb) blocks)) (fun dst =>
            if Nat.ltb (length dst) (length (snd kb)) then UB
            else Ok (mset (fst kb) (map f (snd kb) ++ skipn (length (snd kb)) dst) blocks))) (fun k => k) (fun _ b d => d = map f b) (t_blocks t) (t_blocks r))
      as [dst' [F1 [F2 [F3 [F4 F5]]]]].
    - intros key b blocks b0 Hin Hf HL. cbn [fst snd]. rewrite Hf. cbn [at_or_throw bind]. exists (map f b).
      rewrite HL, Nat.ltb_irrefl. rewrite skipn_all2 by lia. rewrite app_nil_r. split; [reflexivity|]. split; [now rewrite map_length|reflexivity].
    - rewrite map_id. now apply wf_keys_nodup.
    - apply wf_blocks_sorted. apply Wr.
    - intros key b Hin. rewrite Hb. exists (repeat junk (length b)). split; [|apply repeat_length].
      assert (Hm := In_mfind _ _ _ (wf_blocks_sorted _ (wf_tcore _ W)) Hin). fold (t_blocks t) in Hm. clear - Hm.
      induction (t_blocks t) as [|[k0 b0] l IH]; [discriminate|]. cbn [mfind shape junk_blocks map fst snd] in *. destruct (eqb key k0); [now injection Hm as ->|auto].
    - rewrite F1. cbn [bind]. f_equal. unfold transform. rewrite Hn, He. f_equal. f_equal. apply msorted_ext; auto.
      + change (msorted (t_blocks (transform f t))). apply wf_blocks_sorted. now apply transform_wf.
      + intro k. rewrite mfind_map_val2. destruct (mfind k (t_blocks t)) as [b|] eqn:Eb; cbn [option_map].
        * destruct (F4 k b) as [d [Hd ->]]; [now apply mfind_In|exact Hd].
        * rewrite F5; [|rewrite map_id; now apply mfind_None]. rewrite Hb. apply mfind_None. rewrite junk_keys. rewrite shape_keys. now apply mfind_None.
  Qed.
End Fill.
