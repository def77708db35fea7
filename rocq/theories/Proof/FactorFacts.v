(** Two tensors that share a common edge and whose product is a given tensor: what qr and svd return. *)
From Coq Require Import String List Bool Arith Lia Sorted Permutation.
From Verif Require Import Base.Outcome Base.SMap Model.Symmetry Model.Edge Model.Core Model.Transpose Model.EdgeOperator Model.Contract
  Spec.Blocks Spec.Fuse Spec.Sign Spec.Relabel Spec.Contract Spec.FermiContract Proof.SymmetryFacts Proof.LoopFacts Proof.CoreFacts Proof.ConstructFacts Proof.ElemFacts Proof.OffsetFacts
  Proof.CopyLoopFacts Proof.GroupFacts Proof.MergeFacts Proof.TableFacts Proof.SumFacts Proof.MatrixFacts Proof.SignFacts Proof.ExchangeFacts Proof.TransposeFacts Proof.TransposeTensor Proof.TransposeNames Proof.EdgeOperatorFacts Proof.NamedOperator Proof.LegFacts Proof.MergeSplit
  Proof.SplitMerged Proof.RegroupFacts Proof.TwoLegs Proof.ContractPlain Proof.ContractSym Proof.PairContract.
Import ListNotations.
Local Notation tlegs t := (combine (t_names t) (t_edges t)).

Section Same.
  Context {S R : Type} {SS : Sym S} {SL : SymLaws S} {RR : Scalar R}.
  Notation entry := (S * nat)%type.

  Lemma prune_maps : forall (b : list (list S * list R)) es es' i, maps_of es = maps_of es' -> maps_of (prune_from b i es) = maps_of (prune_from b i es').
  Proof.
    intros b es. induction es as [|e es IH]; intros [|e' es'] i H; try discriminate; [reflexivity|]. unfold maps_of in *. cbn [map] in H. injection H as H1 H2.
    cbn [prune_from map]. f_equal; [cbn [emap]; now rewrite H1|now apply IH].
  Qed.
  (** equal but for the arrows *)
  Lemma blocks_ext : forall t r : tensor S R, wf_tensor t -> wf_tensor r -> t_names r = t_names t -> maps_of (t_edges r) = maps_of (t_edges t) ->
    (forall pos pt, assigns pos (t_names t) pt -> valid_pt (t_core t) pt -> const_at r pos = const_at t pos) -> t_blocks r = t_blocks t.
  Proof.
    intros t r W Wr Hn Hm H.
    assert (We : wf_core (mkCore (t_edges t) (t_blocks r))).
    { pose proof (wf_tcore _ Wr) as C. constructor; cbn [c_edges c_blocks].
      - apply (wf_maps _ (wf_tcore _ W)).
      - rewrite <- Hm. apply (wf_shape _ C).
      - intros i e s Hi Hs. apply (f_equal (fun l => nth_error l i)) in Hm. unfold maps_of in Hm. rewrite !nth_error_map, Hi in Hm.
        destruct (nth_error (t_edges r) i) as [e'|] eqn:Q; [|discriminate]. injection Hm as Hm. rewrite <- Hm in Hs. exact (wf_pruned _ C i e' s Q Hs). }
    assert (X : mkCore (t_edges t) (t_blocks r) = t_core t).
    { apply core_ext; auto; [apply W|]. intros p Hp. change (valid_pt (t_core t) p) in Hp.
      assert (Hp' : valid_pt (t_core r) p) by (unfold valid_pt in *; change (c_edges (t_core r)) with (t_edges r); now rewrite Hm).
      assert (Ha : assigns (combine (t_names t) p) (t_names t) p).
      { apply assigns_combine; [apply W|]. destruct Hp as [Hp _]. apply in_range_length in Hp. rewrite (wf_rank _ W). unfold maps_of in Hp. rewrite map_length in Hp. unfold t_edges. congruence. }
      destruct (const_at_elem t _ p W Ha Hp) as [v [E1 E2]].
      destruct (const_at_elem r (combine (t_names t) p) p Wr) as [v' [E1' E2']]; auto; [now rewrite Hn|].
      rewrite E1. rewrite (H _ p Ha Hp), E2 in E2'. injection E2' as <-. rewrite <- E1'. unfold elem. cbn [c_edges c_blocks]. fold (t_edges r). now rewrite Hm. }
    now apply (f_equal c_blocks) in X.
  Qed.
  (** the charges of a block *)
  Lemma key_present : forall (t : tensor S R) key, wf_tensor t -> In key (map fst (t_blocks t)) -> exists c : nat -> S,
    map c (t_names t) = key /\ ssum (map c (t_names t)) = szero /\ (forall n, In n (t_names t) -> exists d, mfind (c n) (emap (edge_named (tlegs t) n)) = Some d) /\ forall l, incl l (t_names t) -> present (mp t l) (ssum (map c l)) = true.
  Proof.
    intros t key W K1.
    assert (Hd : exists ds, dims_of (maps_of (t_edges t)) key = Some ds /\ ssum key = szero).
    { change (t_blocks t) with (c_blocks (t_core t)) in K1. rewrite <- shape_keys, (wf_shape _ (wf_tcore _ W)) in K1. apply in_map_iff in K1 as [[k n] [<- K1]]. cbn [fst].
      apply in_block_list in K1 as [K1 Kz]. apply dims_of_choice in K1 as [ds [K1 _]]; [|apply W]. eauto. }
    destruct Hd as [ds [Hd Hz]]. pose proof (dims_of_length _ _ _ Hd) as [L1 L2]. unfold maps_of in L1, L2. rewrite map_length in L1, L2.
    set (pos := combine (t_names t) (combine key ds)).
    assert (LL : length (t_names t) = length (combine key ds)) by (rewrite combine_length, (wf_rank _ W); lia).
    assert (Hcc : map (coord pos) (t_names t) = combine key ds) by (apply combine_coords; [apply W|exact LL]).
    assert (Hkk : map (fun n => fst (coord pos n)) (t_names t) = key) by (rewrite <- (map_map (coord pos) fst), Hcc; apply combine_map_fst; lia).
    assert (Hall : forall n, In n (t_names t) -> exists d, mfind (fst (coord pos n)) (emap (edge_named (tlegs t) n)) = Some d).
    { assert (Hdd : dims_of (map (fun n => emap (edge_named (tlegs t) n)) (t_names t)) (map (fun n => fst (coord pos n)) (t_names t)) = Some ds).
      { rewrite Hkk. rewrite <- Hd. f_equal. transitivity (maps_of (map (edge_named (tlegs t)) (t_names t))); [unfold maps_of; now rewrite map_map|]. now rewrite (legs_to_edges t W). }
      revert Hdd. generalize (tlegs t) as lg. generalize pos as ps. clear. intros ps lg. revert ds. induction (t_names t) as [|x l IH]; intros ds Hdd n Hn; [destruct Hn|]. cbn [map dims_of] in Hdd.
      destruct (mfind (fst (coord ps x)) (emap (edge_named lg x))) as [d|] eqn:Ed; [|discriminate].
      destruct (dims_of _ _) as [ds'|] eqn:Eds; [|discriminate]. destruct Hn as [->|Hn]; [eauto|]. eapply IH; eauto. }
    exists (fun n => fst (coord pos n)). split; [exact Hkk|]. split; [congruence|]. split; [exact Hall|]. intros l Hl.
    apply (present_iff _ _ (mp_sorted t W l Hl)). exists (map (fun n => fst (coord pos n)) l).
    assert (Hdc : exists dc, dims_of (mp t l) (map (fun n => fst (coord pos n)) l) = Some dc).
    { clear - Hall Hl. induction l as [|x l IH]; [exists []; reflexivity|]. destruct (Hall x (Hl x (or_introl eq_refl))) as [d Hx]. destruct IH as [dc Hdc]; [intros y Hy; apply Hl; now right|].
      exists (d :: dc). unfold mp in *. cbn [map dims_of]. now rewrite Hx, Hdc. }
    destruct Hdc as [dc Hdc]. eauto.
  Qed.
  (** some charge is carried by both groups *)
  Lemma some_live : forall (t : tensor S R) g h, wf_tensor t -> t_blocks t <> [] -> Permutation (t_names t) (g ++ h) ->
    exists s, present (mp t g) (sneg s) = true /\ present (mp t h) s = true.
  Proof.
    intros t g h W B HP. destruct (t_blocks t) as [|[key data] bl] eqn:Q; [congruence|].
    destruct (key_present t key W) as [c [C1 [C2 [_ C3]]]]; [rewrite Q; now left|]. exists (ssum (map c h)).
    assert (Z : sadd (ssum (map c g)) (ssum (map c h)) = szero) by (rewrite <- ssum_app, <- map_app, <- C2; apply ssum_perm, Permutation_map, Permutation_sym, HP).
    assert (X : ssum (map c g) = sneg (ssum (map c h))) by (apply sadd_eq_0 in Z; now rewrite Z, sneg_invol). rewrite <- X.
    split; apply C3; intros n Hn; eapply Permutation_in; [apply Permutation_sym; exact HP|apply in_or_app; auto|apply Permutation_sym; exact HP|apply in_or_app; auto].
  Qed.
End Same.

Section Factor.
  Context {S R : Type} {SS : Sym S} {SL : SymLaws S} {RR : Scalar R}.
  Notation entry := (S * nat)%type.
  Variable t : tensor S R.

  (** X has the legs g of t and a common leg c, whose charges are those of the other legs h of t; its element is, up to the sign of an odd common
      charge, an entry of a matrix that depends on the charge of c *)
  Record factor (X : tensor S R) (g h : list nat) (c : nat) (last_c ar sg : bool) (K : S -> nat) (m : S -> nat -> nat -> R) : Prop := {
    fc_wf : wf_tensor X;
    fc_names : t_names X = if last_c then g ++ [c] else c :: g;
    fc_free : forall n, In n g -> emap (edge_named (tlegs X) n) = emap (edge_named (tlegs t) n);
    fc_free_arrow : is_fermi = true -> forall n, In n g -> arrow_valid (edge_named (tlegs t) n) = true -> earrow (edge_named (tlegs X) n) = earrow (edge_named (tlegs t) n);
    fc_common : forall s, mfind s (emap (edge_named (tlegs X) c)) = if present (mp t g) (sneg s) && present (mp t h) s then Some (K s) else None;
    fc_arrow : is_fermi = true -> earrow (edge_named (tlegs X) c) = ar;
    fc_elem : forall pos s j, (forall n, In n (t_names X) -> mfind n pos <> None) -> coord pos c = (s, j) -> in_range (mp t g) (map (coord pos) g) ->
      total (map (coord pos) g) = sneg s -> present (mp t h) s = true -> j < K s ->
      const_at X pos = Ok (if sg && sodd s then ropp (m s (snd (joined (tlegs t) g pos)) j) else m s (snd (joined (tlegs t) g pos)) j) }.

  Lemma factor_names : forall X g h c lc ar sg K m, factor X g h c lc ar sg K m -> NoDup (g ++ [c]) /\ (forall n, In n (t_names X) <-> In n g \/ n = c) /\ free_names (t_names X) [c] = g.
  Proof.
    intros X g h c lc ar sg K m F. pose proof (wf_nodup _ (fc_wf _ _ _ _ _ _ _ _ _ F)) as N. rewrite (fc_names _ _ _ _ _ _ _ _ _ F) in *.
    assert (N1 : NoDup (g ++ [c])) by (destruct lc; [exact N|]; eapply Permutation_NoDup; [apply Permutation_cons_append|exact N]).
    split; [exact N1|]. split.
    - intro n. destruct lc; [rewrite in_app_iff; simpl|simpl]; intuition.
    - assert (Nc : ~ In c g) by (apply NoDup_app_inv in N1 as [_ [_ N1]]; intro H; apply (N1 c H); now left).
      assert (Q : free_names g [c] = g).
      { unfold free_names. clear - Nc. induction g as [|x g IH]; [reflexivity|]. cbn [filter member existsb]. rewrite orb_false_r. destruct (Nat.eqb_spec x c) as [->|D]; [destruct Nc; now left|].
        cbn [negb]. f_equal. apply IH. intro H. apply Nc. now right. }
      destruct lc.
      + unfold free_names in *. rewrite filter_app, Q. cbn [filter member existsb]. rewrite Nat.eqb_refl. cbn [orb negb]. apply app_nil_r.
      + unfold free_names in *. cbn [filter member existsb]. rewrite Nat.eqb_refl. cbn [orb negb]. exact Q.
  Qed.

  Hypothesis W : wf_tensor t.
  Hypothesis B : t_blocks t <> [].
  Hypothesis EA : exact_arithmetic R.
  Hypothesis EN : is_fermi = true -> exact_negation R.

  Lemma factor_blocks : forall X g h c lc ar sg K m, factor X g h c lc ar sg K m -> Permutation (t_names t) (g ++ h) -> t_blocks X <> [].
  Proof.
    intros X g h c lc ar sg K m F HP. destruct (some_live t g h W B HP) as [s [P1 P2]].
    pose proof (fc_common _ _ _ _ _ _ _ _ _ F s) as C. rewrite P1, P2 in C. cbn [andb] in C.
    pose proof (fc_wf _ _ _ _ _ _ _ _ _ F) as WX.
    destruct (leg_of_name X c WX) as [e He]; [apply (factor_names _ _ _ _ _ _ _ _ _ F); now right|]. rewrite (leg_named X c e WX He) in C.
    apply In_nth_error in He as [i Hi]. apply combine_nth_inv in Hi as [H1 H2].
    destruct (wf_pruned _ (wf_tcore _ WX) i e s H2) as [key [K1 _]]. { apply mfind_In in C. now apply (in_map fst) in C. }
    intro Q. unfold t_blocks in Q. rewrite Q in K1. destruct K1.
  Qed.

  Variables (E : @env R) (I : internal) (X Y : tensor S R) (fx fy : list nat) (cx cy : nat) (lx ly sx sy sw : bool) (Kx Ky : S -> nat) (mx my : S -> nat -> nat -> R).
  Hypothesis HI : NoDup [i_contract_0 I; i_contract_1 I; i_contract_2 I].
  Hypothesis HP : Permutation (t_names t) (fx ++ fy).
  Hypothesis FX : factor X fx fy cx lx true sx Kx mx.
  Hypothesis FY : factor Y fy fx cy ly false sy Ky my.
  Hypothesis HK : forall s, Ky (sneg s) = Kx s.
  Hypothesis HG : is_fermi = true -> group_arrow_known (env_arrow E) t fx /\ group_arrow_known (env_arrow E) t fy.
  Hypothesis Hsgn : xorb (xorb sx (negb lx)) (xorb (xorb sy ly) sw) = false.
  Hypothesis HM : forall pos pt, assigns pos (t_names t) pt -> valid_pt (t_core t) pt -> let s := total (map (coord pos) fy) in
    rsum (map (fun j => rmul (mx s (snd (joined (tlegs t) fx pos)) j) (my (sneg s) (snd (joined (tlegs t) fy pos)) j)) (seq 0 (Kx s))) =
    signed ropp (exchanged_odd (leg_odd pos) (t_names t) (fx ++ fy) + (if sw && sodd s then 1 else 0)) (element t pos).

  Lemma rc_incl : incl fx (t_names t) /\ incl fy (t_names t).
  Proof. split; intros n Hn; eapply Permutation_in; [apply Permutation_sym; exact HP|apply in_or_app; auto|apply Permutation_sym; exact HP|apply in_or_app; auto]. Qed.
  Lemma factor_common_sorted : forall X0 g h c lc ar sg K m, factor X0 g h c lc ar sg K m -> msorted (emap (edge_named (tlegs X0) c)).
  Proof. intros X0 g h c lc ar sg K m F. apply named_sorted; [apply F|]. apply (factor_names _ _ _ _ _ _ _ _ _ F). now right. Qed.
  (** the arrow of a group stays known *)
  Lemma factor_known : forall X0 g h c lc ar sg K m, factor X0 g h c lc ar sg K m -> group_arrow_known (env_arrow E) t g -> group_arrow_known (env_arrow E) X0 g.
  Proof.
    intros X0 g h c lc ar sg K m F [H|[H|[n [H1 H2]]]]; [now left|right; now left|right; right]. exists n. split; [exact H1|]. unfold legs_of in *.
    unfold arrow_valid in *. now rewrite (fc_free _ _ _ _ _ _ _ _ _ F n H1).
  Qed.
  Lemma one_point : forall (m : list entry) pt, in_range [m] pt -> exists s j d, pt = [(s, j)] /\ In (s, d) m /\ j < d.
  Proof. clear. intros m pt H. inversion H as [|? ? s j d ? H1 H2 H3]; subst. inversion H3; subst. eauto 7. Qed.
  Lemma find_cons : forall (n c : nat) (x : entry) pos, mfind n ((c, x) :: pos) = if Nat.eqb n c then Some x else mfind n pos.
  Proof. intros. unfold mfind. cbn [find fst]. destruct (Nat.eqb_spec n c) as [->|D]; [now rewrite eqb_refl|]. destruct (eqb n c) eqn:Q; [apply eqb_eq in Q; contradiction|reflexivity]. Qed.
  Lemma coord_other : forall (n c : nat) (x : entry) pos, n <> c -> coord ((c, x) :: pos) n = coord pos n.
  Proof. intros n c x pos H. unfold coord. rewrite find_cons. now apply Nat.eqb_neq in H as ->. Qed.
  Lemma coord_same : forall (c : nat) (x : entry) pos, coord ((c, x) :: pos) c = x.
  Proof. intros. unfold coord. now rewrite find_cons, Nat.eqb_refl. Qed.
  Lemma coords_other : forall l (c : nat) (x : entry) pos, ~ In c l -> map (coord ((c, x) :: pos)) l = map (coord pos) l.
  Proof. intros l c x pos H. apply map_ext_in. intros n Hn. apply coord_other. intros ->. contradiction. Qed.
  Lemma leg_odd_other : forall (n c : nat) (x : entry) pos, n <> c -> leg_odd ((c, x) :: pos) n = leg_odd pos n.
  Proof. intros n c x pos H. unfold leg_odd. rewrite find_cons. now apply Nat.eqb_neq in H as ->. Qed.

  Lemma range_maps : forall (T : tensor S R) pos, wf_tensor T -> (forall n, In n (t_names T) -> exists d, In (fst (coord pos n), d) (emap (edge_named (tlegs T) n)) /\ snd (coord pos n) < d) ->
    in_range (maps_of (t_edges T)) (map (coord pos) (t_names T)).
  Proof.
    intros T pos WT H. rewrite <- (legs_to_edges T WT). unfold maps_of. rewrite map_map. now apply in_range_named.
  Qed.
  Lemma assigns_all : forall (pos : list (nat * entry)) l, (forall n, In n l -> mfind n pos <> None) -> assigns pos l (map (coord pos) l).
  Proof.
    intros pos l H. unfold assigns. rewrite map_map. apply map_ext_in. intros n Hn. unfold coord. specialize (H n Hn). now destruct (mfind n pos).
  Qed.
  (** the sign of a product *)
  Lemma rc_sign : forall pos s j, is_fermi = true -> (forall n, In n (fx ++ fy) -> mfind n pos <> None) ->
    total (map (coord pos) fx) = sneg s -> total (map (coord pos) fy) = s ->
    Nat.odd (pair_sign X Y [(cx, cy)] ((cx, (s, j)) :: pos) ((cy, (sneg s, j)) :: pos)) = xorb (negb lx && sodd s) (ly && sodd s).
  Proof.
    intros pos s j Hf Hpos Tx Ty.
    destruct (factor_names _ _ _ _ _ _ _ _ _ FX) as [NX [IX QX]]. destruct (factor_names _ _ _ _ _ _ _ _ _ FY) as [NY [IY QY]].
    assert (Cx : ~ In cx fx) by (apply NoDup_app_inv in NX as [_ [_ N]]; intro H; apply (N cx H); now left).
    assert (Cy : ~ In cy fy) by (apply NoDup_app_inv in NY as [_ [_ N]]; intro H; apply (N cy H); now left).
    assert (OX : par (leg_odd ((cx, (s, j)) :: pos)) fx = sodd s).
    { rewrite <- odd_total; [rewrite coords_other, Tx by exact Cx; apply sodd_neg|]. intros n Hn. rewrite find_cons. destruct (Nat.eqb n cx); [discriminate|]. apply Hpos, in_or_app. now left. }
    assert (OY : par (leg_odd ((cy, (sneg s, j)) :: pos)) fy = sodd s).
    { rewrite <- odd_total; [rewrite coords_other, Ty by exact Cy; reflexivity|]. intros n Hn. rewrite find_cons. destruct (Nat.eqb n cy); [discriminate|]. apply Hpos, in_or_app. now right. }
    unfold pair_sign. cbn [map fst snd rev app]. rewrite QX, QY. rewrite !Nat.odd_add.
    assert (Z : count (fun n => negb (earrow (edge_named (legs_of X) n)) && leg_odd ((cx, (s, j)) :: pos) n) [cx] = 0).
    { unfold count. cbn [filter]. unfold legs_of. rewrite (fc_arrow _ _ _ _ _ _ _ _ _ FX Hf). reflexivity. }
    rewrite Z. cbn [Nat.odd Nat.even negb]. rewrite xorb_false_r. f_equal.
    - rewrite (fc_names _ _ _ _ _ _ _ _ _ FX). destruct lx; cbn [negb andb].
      + now rewrite exchanged_same.
      + change (cx :: fx) with ([cx] ++ fx). rewrite exchange_groups by (eapply Permutation_NoDup; [apply Permutation_app_comm|exact NX]).
        rewrite OX. unfold par. cbn [fold_right map]. unfold leg_odd at 1. rewrite find_cons, Nat.eqb_refl. destruct (sodd s); reflexivity.
    - rewrite (fc_names _ _ _ _ _ _ _ _ _ FY). destruct ly; cbn [andb].
      + change (cy :: fy) with ([cy] ++ fy). rewrite exchange_groups by exact NY.
        rewrite OY. unfold par. cbn [fold_right map]. unfold leg_odd at 1. rewrite find_cons, Nat.eqb_refl, sodd_neg. destruct (sodd s); reflexivity.
      + rewrite exchanged_same; [reflexivity|]. eapply Permutation_NoDup; [apply Permutation_sym, Permutation_cons_append|exact NY].
  Qed.
  Lemma rc_sum : forall pos, (forall n, In n (fx ++ fy) -> mfind n pos <> None) -> in_range (mp t (fx ++ fy)) (map (coord pos) (fx ++ fy)) -> total (map (coord pos) (fx ++ fy)) = szero ->
    signed_sum X Y [(cx, cy)] pos = signed ropp (exchanged_odd (leg_odd pos) (t_names t) (fx ++ fy)) (element t pos).
  Proof.
    intros pos Hpos Hr Hz. set (s := total (map (coord pos) fy)).
    destruct (factor_names _ _ _ _ _ _ _ _ _ FX) as [NX [IX QX]]. destruct (factor_names _ _ _ _ _ _ _ _ _ FY) as [NY [IY QY]].
    assert (Cx : ~ In cx fx) by (apply NoDup_app_inv in NX as [_ [_ N]]; intro H; apply (N cx H); now left).
    assert (Cy : ~ In cy fy) by (apply NoDup_app_inv in NY as [_ [_ N]]; intro H; apply (N cy H); now left).
    assert (Tx : total (map (coord pos) fx) = sneg s).
    { unfold total in *. rewrite !map_app, ssum_app in Hz. apply sadd_eq_0 in Hz. unfold s, total. now rewrite Hz, sneg_invol. }
    unfold mp in Hr. pose proof (proj1 (in_range_named _ _ _) Hr) as Hall.
    assert (Rx : in_range (mp t fx) (map (coord pos) fx)) by (apply in_range_named; intros n Hn; apply Hall, in_or_app; now left).
    assert (Ry : in_range (mp t fy) (map (coord pos) fy)) by (apply in_range_named; intros n Hn; apply Hall, in_or_app; now right).
    destruct rc_incl as [Ix Iy].
    assert (Px : present (mp t fx) (sneg s) = true) by (rewrite <- Tx; apply present_point; [now apply mp_sorted|exact Rx]).
    assert (Py : present (mp t fy) s = true) by (apply present_point; [now apply mp_sorted|exact Ry]).
    pose proof (fc_common _ _ _ _ _ _ _ _ _ FX s) as Cm. rewrite Px, Py in Cm. cbn [andb] in Cm.
    pose proof (factor_common_sorted _ _ _ _ _ _ _ _ _ FX) as Sx.
    set (ix := snd (joined (tlegs t) fx pos)). set (iy := snd (joined (tlegs t) fy pos)).
    unfold signed_sum. cbn [map fst snd].
    rewrite (flatten_sym EA [cx] [cx] (fun _ => emap (edge_named (legs_of X) cx)) _ (fun j => signed ropp (if sw && sodd s then 1 else 0) (rmul (mx s ix j) (my (sneg s) iy j))) s).
    - cbn [map]. rewrite one_dim by exact Sx. unfold legs_of. rewrite Cm.
      assert (Hv : valid_pt (t_core t) (map (coord pos) (t_names t))).
      { split.
        - apply range_maps; [exact W|]. intros n Hn. apply Hall. eapply Permutation_in; [exact HP|exact Hn].
        - change (total (map (coord pos) (t_names t)) = szero). rewrite <- Hz. now apply total_perm. }
      specialize (HM pos _ (assigns_all pos (t_names t) (fun n Hn => Hpos n (Permutation_in _ HP Hn))) Hv). cbv zeta in HM. fold s ix iy in HM.
      destruct (bool_dec (@is_fermi S SS) true) as [F|F].
      + specialize (EN F). rewrite <- (map_map (fun j => rmul (mx s ix j) (my (sneg s) iy j)) (signed ropp (if sw && sodd s then 1 else 0))).
        rewrite <- (signed_sum_out EA EN), HM, (ExchangeFacts.signed_signed EA EN). apply signed_parity. rewrite !Nat.odd_add.
        destruct (sw && sodd s), (Nat.odd (exchanged_odd _ _ _)); reflexivity.
      + apply not_true_is_false in F. rewrite (bose_odd F s), andb_false_r in *. unfold signed in *. cbn [Nat.odd Nat.even negb] in *. rewrite Nat.add_0_r in HM. exact HM.
    - repeat constructor. intros [].
    - reflexivity.
    - intros n _. exact Sx.
    - intros pt Hpt Ht. apply one_point in Hpt as [s' [j [d [-> [Hd Hj]]]]]. cbn [map combine app].
      assert (El : element X ((cx, (s', j)) :: pos) = rzero); [|rewrite El, (ea_mul_0 _ EA)].
      2: { destruct (bool_dec (@is_fermi S SS) true) as [F|F]; [apply (signed_zero EA (EN F))|]. apply not_true_is_false in F. now rewrite (pair_sign_bose X Y [(cx, cy)] F). }
      unfold element. rewrite (const_at_forbidden X _ (map (coord ((cx, (s', j)) :: pos)) (t_names X))); [reflexivity|apply FX| | |].
      + apply assigns_all. intros n Hn. rewrite find_cons. destruct (Nat.eqb_spec n cx) as [->|D]; [discriminate|]. apply IX in Hn as [Hn|Hn]; [|contradiction]. apply Hpos, in_or_app. now left.
      + apply range_maps; [apply FX|]. intros n Hn. apply IX in Hn as [Hn| ->].
        * rewrite coord_other by (intros ->; contradiction). rewrite (fc_free _ _ _ _ _ _ _ _ _ FX n Hn). apply Hall, in_or_app. now left.
        * rewrite coord_same. cbn [fst snd]. eauto.
      + change (total (map (coord ((cx, (s', j)) :: pos)) (t_names X)) <> szero). intro Q. apply Ht. unfold total at 1. cbn [map fst]. rewrite ssum_one.
        rewrite (total_perm _ (t_names X) (fx ++ [cx])) in Q.
        * rewrite map_app in Q. cbn [map] in Q. rewrite coord_same, coords_other in Q by exact Cx. unfold total in Q, Tx. rewrite map_app, ssum_app, Tx in Q. cbn [map fst] in Q. rewrite ssum_one in Q.
          apply sadd_eq_0 in Q. now rewrite sneg_invol in Q.
        * rewrite (fc_names _ _ _ _ _ _ _ _ _ FX). destruct lx; [reflexivity|]. apply Permutation_cons_append.
    - intros pt Hpt Ht. apply one_point in Hpt as [s' [j [d [-> [Hd Hj]]]]]. unfold total in Ht. cbn [map fst] in Ht. rewrite ssum_one in Ht. subst s'. cbn [map combine app opposite fst snd].
      assert (Hd' : mfind s (emap (edge_named (tlegs X) cx)) = Some d) by (now apply In_mfind). rewrite Cm in Hd'. injection Hd' as <-.
      change (opposite (s, j)) with (sneg s, j).
      assert (VX : element X ((cx, (s, j)) :: pos) = if sx && sodd s then ropp (mx s ix j) else mx s ix j).
      { unfold element. rewrite (fc_elem _ _ _ _ _ _ _ _ _ FX _ s j); [| |apply coord_same| | |exact Py|exact Hj].
        - unfold joined. rewrite coords_other by exact Cx. reflexivity.
        - intros n Hn. rewrite find_cons. destruct (Nat.eqb_spec n cx) as [->|D]; [discriminate|]. apply IX in Hn as [Hn|Hn]; [|contradiction]. apply Hpos, in_or_app. now left.
        - now rewrite coords_other.
        - now rewrite coords_other. }
      assert (VY : element Y ((cy, (sneg s, j)) :: pos) = if sy && sodd s then ropp (my (sneg s) iy j) else my (sneg s) iy j).
      { unfold element. rewrite (fc_elem _ _ _ _ _ _ _ _ _ FY _ (sneg s) j); [| |apply coord_same| | |exact Px|now rewrite HK].
        - unfold joined. rewrite coords_other by exact Cy. rewrite sodd_neg. reflexivity.
        - intros n Hn. rewrite find_cons. destruct (Nat.eqb_spec n cy) as [->|D]; [discriminate|]. apply IY in Hn as [Hn|Hn]; [|contradiction]. apply Hpos, in_or_app. now right.
        - now rewrite coords_other.
        - rewrite coords_other by exact Cy. now rewrite sneg_invol. }
      rewrite VX, VY.
      assert (Ej : snd (fuse [emap (edge_named (legs_of X) cx)] [coord [(cx, (s, j))] cx]) = j) by (rewrite fuse_one; now rewrite coord_same).
      rewrite Ej. destruct (bool_dec (@is_fermi S SS) true) as [F|F].
      + specialize (EN F). assert (P := rc_sign pos s j F Hpos Tx eq_refl).
        assert (QX' : (if sx && sodd s then ropp (mx s ix j) else mx s ix j) = signed ropp (if sx && sodd s then 1 else 0) (mx s ix j)) by (now destruct (sx && sodd s)).
        assert (QY' : (if sy && sodd s then ropp (my (sneg s) iy j) else my (sneg s) iy j) = signed ropp (if sy && sodd s then 1 else 0) (my (sneg s) iy j)) by (now destruct (sy && sodd s)).
        rewrite QX', QY', (signed_mul EA EN), (ExchangeFacts.signed_signed EA EN). apply signed_parity. rewrite !Nat.odd_add, P.
        revert Hsgn. clear. destruct sx, sy, sw, lx, ly, (sodd s); cbn; congruence.
      + apply not_true_is_false in F. rewrite (bose_odd F s), !andb_false_r. now rewrite (pair_sign_bose X Y [(cx, cy)] F).
  Qed.

  Lemma maps_named : forall T : tensor S R, wf_tensor T -> maps_of (t_edges T) = map (fun n => emap (edge_named (tlegs T) n)) (t_names T).
  Proof. intros T WT. rewrite <- (legs_to_edges T WT) at 1. unfold maps_of. now rewrite map_map. Qed.
  Lemma mp_app : forall l1 l2, mp t (l1 ++ l2) = mp t l1 ++ mp t l2.
  Proof. intros. apply map_app. Qed.
  Theorem reconstruct : exists r, bind (contract E I X Y [(cx, cy)]) (fun p => transpose E p (t_names t)) = Ok r /\ wf_tensor r /\ t_names r = t_names t /\
    maps_of (t_edges r) = maps_of (t_edges t) /\ t_blocks r = t_blocks t /\
    (is_fermi = true -> forall n, In n (t_names t) -> arrow_valid (edge_named (tlegs t) n) = true -> earrow (edge_named (tlegs r) n) = earrow (edge_named (tlegs t) n)).
  Proof.
    destruct (factor_names _ _ _ _ _ _ _ _ _ FX) as [NX [IX QX]]. destruct (factor_names _ _ _ _ _ _ _ _ _ FY) as [NY [IY QY]]. destruct rc_incl as [Ix Iy].
    assert (ND : NoDup (fx ++ fy)) by (eapply Permutation_NoDup; [exact HP|apply W]).
    pose proof (factor_common_sorted _ _ _ _ _ _ _ _ _ FX) as Sx. pose proof (factor_common_sorted _ _ _ _ _ _ _ _ _ FY) as Sy.
    assert (HMt : forall s d, In (s, d) (emap (edge_named (legs_of X) cx)) <-> In (sneg s, d) (emap (edge_named (legs_of Y) cy))).
    { intros s d. pose proof (fc_common _ _ _ _ _ _ _ _ _ FX s) as A1. pose proof (fc_common _ _ _ _ _ _ _ _ _ FY (sneg s)) as A2. rewrite sneg_invol, HK, andb_comm in A2. unfold legs_of.
      split; intro H; apply In_mfind in H; auto; apply mfind_In; congruence. }
    destruct (contract_pair_at EA EN E I X Y cx cy HI) as [r [C1 [C2 [C3 [[re [C4 C5]] [C6 [C7 [C8 [C9 C10]]]]]]]]]; auto.
    { apply FX. } { apply FY. } { exact (factor_blocks _ _ _ _ _ _ _ _ _ FX HP). }
    { apply (factor_blocks _ _ _ _ _ _ _ _ _ FY). etransitivity; [exact HP|]. apply Permutation_app_comm. }
    { apply IX. now right. } { apply IY. now right. }
    { intro F. unfold legs_of. now rewrite (fc_arrow _ _ _ _ _ _ _ _ _ FX F), (fc_arrow _ _ _ _ _ _ _ _ _ FY F). }
    { rewrite QX, QY. exact ND. }
    { intro F. rewrite QX, QY. destruct (HG F) as [G1 G2]. split; [exact (factor_known _ _ _ _ _ _ _ _ _ FX G1)|exact (factor_known _ _ _ _ _ _ _ _ _ FY G2)]. }
    rewrite QX, QY in C3, C4, C6, C7. rewrite QX in C8. rewrite QY in C9.
    assert (MX : map (fun n => emap (edge_named (legs_of X) n)) fx = mp t fx) by (apply map_ext_in; intros n Hn; exact (fc_free _ _ _ _ _ _ _ _ _ FX n Hn)).
    assert (MY : map (fun n => emap (edge_named (legs_of Y) n)) fy = mp t fy) by (apply map_ext_in; intros n Hn; exact (fc_free _ _ _ _ _ _ _ _ _ FY n Hn)).
    rewrite MX, MY, <- mp_app in C4, C6, C7.
    (* t itself with the legs in this order *)
    destruct (transpose_named E t (fx ++ fy) W HP) as [t' [T1 [T2 [T3 [T4 T5]]]]].
    assert (Lt' : forall n, In n (t_names t) -> edge_named (tlegs t') n = edge_named (tlegs t) n).
    { intros n Hn. destruct (leg_of_name t n W Hn) as [e He]. rewrite (leg_named t n e W He). apply leg_named; [exact T2|]. now apply T4. }
    assert (Mt' : maps_of (t_edges t') = mp t (fx ++ fy)).
    { rewrite <- T3. rewrite <- (legs_to_edges t' T2) at 1. unfold maps_of, mp. rewrite map_map. apply map_ext_in. intros n Hn. rewrite Lt'; [reflexivity|]. rewrite T3 in Hn. eapply Permutation_in; [apply Permutation_sym; exact HP|exact Hn]. }
    assert (Mr : maps_of (t_edges r) = mp t (fx ++ fy)).
    { rewrite C5. rewrite <- Mt' in C4. rewrite (prune_maps _ _ _ 0 C4). rewrite (wf_prune_id (t_core t')); [exact Mt'|apply T2|].
      rewrite C6, <- Mt'. rewrite <- (shape_keys (c_blocks (t_core t'))). f_equal. symmetry. apply (wf_shape (t_core t')). apply T2. }
    assert (Vr : forall pos pt, assigns pos (t_names r) pt -> valid_pt (t_core r) pt -> const_at r pos = Ok (signed ropp (exchanged_odd (leg_odd pos) (t_names t) (fx ++ fy)) (element t pos))).
    { intros pos pt Ha Hv. rewrite (C10 pos pt Ha Hv). f_equal. apply C7 in Hv as [Hv Hz]. rewrite C3 in Ha. pose proof (assigns_coord _ _ _ Ha) as Hpt.
      apply rc_sum; [|rewrite <- Hpt; exact Hv|rewrite <- Hpt; exact Hz].
      intros n Hn. unfold assigns in Ha. assert (Q : In (mfind n pos) (map Some pt)) by (rewrite <- Ha; now apply (in_map (fun n => mfind n pos))).
      apply in_map_iff in Q as [x [Q _]]. congruence. }
    assert (HPr : Permutation (t_names r) (t_names t)) by (rewrite C3; now apply Permutation_sym).
    destruct (transpose_named E r (t_names t) C2 HPr) as [r' [R1 [R2 [R3 [R4 R5]]]]].
    exists r'. rewrite C1. cbn [bind]. split; [exact R1|]. split; [exact R2|]. split; [exact R3|].
    assert (Lr' : forall n, In n (t_names t) -> edge_named (tlegs r') n = edge_named (tlegs r) n).
    { intros n Hn. destruct (leg_of_name r n C2) as [e He]; [eapply Permutation_in; [apply Permutation_sym; exact HPr|exact Hn]|]. rewrite (leg_named r n e C2 He). apply leg_named; [exact R2|]. now apply R4. }
    assert (Lr : forall n, In n (fx ++ fy) -> emap (edge_named (tlegs r) n) = emap (edge_named (tlegs t) n)).
    { assert (Q : map (fun n => emap (edge_named (tlegs r) n)) (fx ++ fy) = mp t (fx ++ fy)).
      { rewrite <- Mr, (maps_named r C2). exact (f_equal (map (fun n => emap (edge_named (tlegs r) n))) (eq_sym C3)). }
      intros n Hn. exact (ext_in_map Q n Hn). }
    assert (Mr' : maps_of (t_edges r') = maps_of (t_edges t)).
    { rewrite (maps_named r' R2), (maps_named t W). rewrite (f_equal (map (fun n => emap (edge_named (tlegs r') n))) R3). apply map_ext_in. intros n Hn. rewrite Lr' by exact Hn. apply Lr. eapply Permutation_in; [exact HP|exact Hn]. }
    split; [exact Mr'|]. split.
    - apply blocks_ext; auto. intros pos pt Ha Hv.
      assert (Ha' : assigns pos (t_names r) (map (coord pos) (t_names r))) by (rewrite C3; eapply assigns_perm; [exact Ha|]; intros n Hn; eapply Permutation_in; [apply Permutation_sym; exact HP|exact Hn]).
      assert (Hv' : valid_pt (t_core r) (map (coord pos) (t_names r))).
      { apply C7. rewrite C3. pose proof (assigns_coord _ _ _ Ha) as Hpt. subst pt. destruct Hv as [Hv Hz]. split.
        - unfold mp. apply (in_range_perm _ (coord pos) (t_names t)); [intros n Hn; eapply Permutation_in; [apply Permutation_sym; exact HP|exact Hn]|].
          change (c_edges (t_core t)) with (t_edges t) in Hv. rewrite <- (legs_to_edges t W) in Hv. unfold maps_of in Hv. now rewrite map_map in Hv.
        - rewrite <- Hz. change (total (map (coord pos) (fx ++ fy)) = total (map (coord pos) (t_names t))). now apply total_perm, Permutation_sym. }
      destruct (R5 pos _ Ha' Hv') as [v [V1 V2]]. rewrite V2. rewrite (Vr pos _ Ha' Hv') in V1. injection V1 as <-.
      destruct (const_at_elem t pos pt W Ha Hv) as [w [_ E2]]. unfold element. rewrite E2. f_equal. rewrite C3.
      destruct (bool_dec (@is_fermi S SS) true) as [F|F].
      + rewrite (ExchangeFacts.signed_signed EA (EN F)). unfold signed. rewrite Nat.odd_add.
        pose proof (exchanged_compose (leg_odd pos) (t_names t) (fx ++ fy) (t_names t) (wf_nodup _ W) HP (Permutation_sym HP)) as Q. rewrite exchanged_same in Q by apply W. cbn [Nat.odd Nat.even negb] in Q.
        rewrite xorb_comm, <- Q. reflexivity.
      + apply not_true_is_false in F. rewrite !(bose_exchanged F). reflexivity.
    - intros F n Hn Hav. rewrite Lr' by exact Hn. apply (Permutation_in _ HP) in Hn. apply in_app_or in Hn as [Hn|Hn].
      + rewrite <- (fc_free_arrow _ _ _ _ _ _ _ _ _ FX F n Hn Hav). apply (C8 F n Hn). unfold arrow_valid in *. unfold legs_of. now rewrite (fc_free _ _ _ _ _ _ _ _ _ FX n Hn).
      + rewrite <- (fc_free_arrow _ _ _ _ _ _ _ _ _ FY F n Hn Hav). apply (C9 F n Hn). unfold arrow_valid in *. unfold legs_of. now rewrite (fc_free _ _ _ _ _ _ _ _ _ FY n Hn).
  Qed.
End Factor.
