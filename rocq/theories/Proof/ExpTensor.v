(** Exponential of bosonic tensors. *)
From Coq Require Import String List Bool Arith ZArith Lia Sorted Permutation.
From Verif Require Import Base.Outcome Base.SMap Model.Symmetry Model.Edge Model.Core Model.Transpose Model.EdgeOperator Model.Elementwise Model.Contract Model.Exponential
  Spec.Blocks Spec.Fuse Spec.Sign Spec.Relabel Spec.Contract Spec.Operator Proof.SymmetryFacts Proof.LoopFacts Proof.CoreFacts Proof.ConstructFacts Proof.ElemFacts Proof.OffsetFacts
  Proof.GroupFacts Proof.CopyLoopFacts Proof.TableFacts Proof.EdgeOperatorFacts Proof.EdgeOperatorMain Proof.NamedOperator Proof.TransposeFacts Proof.TransposeTensor Proof.TransposeNames Proof.LegFacts Proof.ScalarOpFacts
  Proof.SumFacts Proof.GemmFacts Proof.RegroupFacts Proof.ContractNames Proof.ContractPlain Proof.TwoLegs Proof.SplitAll Proof.ContractSym Proof.TraceWalk Proof.TraceSym Proof.TraceMain Proof.ExpWalk.
Import ListNotations.

Local Notation tlegs t := (combine (t_names t) (t_edges t)).

Section Perm.
  Context {S R : Type} {SS : Sym S} {SL : SymLaws S} {RR : Scalar R}.
  Notation entry := (S * nat)%type.

  Lemma present_perm_imp : forall (t : tensor S R) l l' s, wf_tensor t -> incl l (t_names t) -> NoDup l -> Permutation l l' -> present (mp t l) s = true -> present (mp t l') s = true.
  Proof.
    intros t l l' s W Hi Hn Hp H. assert (Hi' : incl l' (t_names t)) by (intros x Hx; apply Hi; eapply Permutation_in; [apply Permutation_sym; exact Hp|exact Hx]).
    apply (present_iff _ _ (mp_sorted t W l Hi)) in H as [key [ds [Hd Hs]]]. apply (present_iff _ _ (mp_sorted t W l' Hi')).
    pose proof (dims_of_length _ _ _ Hd) as [L1 L2]. unfold mp in L1, L2. rewrite map_length in L1, L2.
    set (pos := combine l (combine key ds)). set (ch := fun n => fst (coord pos n)).
    assert (LL : length l = length (combine key ds)) by (rewrite combine_length; lia).
    assert (Hk : map ch l = key).
    { unfold ch. rewrite <- (map_map (coord pos) fst). unfold pos. rewrite combine_coords by assumption. apply combine_map_fst. lia. }
    assert (Hall : forall n, In n l -> exists d, mfind (ch n) (emap (edge_named (tlegs t) n)) = Some d).
    { intros n Hin. apply In_nth_error in Hin as [i Hin]. apply (dims_find (fun n => emap (edge_named (tlegs t) n)) l key ds Hd i n (ch n) Hin). rewrite <- Hk, nth_error_map, Hin. reflexivity. }
    destruct (dims_at (fun n => emap (edge_named (tlegs t) n)) ch l') as [ds' Hd'].
    { intros n Hin. apply Hall. eapply Permutation_in; [apply Permutation_sym; exact Hp|exact Hin]. }
    exists (map ch l'), ds'. split; [exact Hd'|]. rewrite <- Hs, <- Hk. apply ssum_perm, Permutation_map, Permutation_sym, Hp.
  Qed.
End Perm.

Section Exp.
  Context {S R : Type} {SS : Sym S} {SL : SymLaws S} {RR : Scalar R} {ER : ExpScalar R}.
  Notation entry := (S * nat)%type.
  Hypothesis Nf : @is_fermi S SS = false.
  Variables (E : @env R) (gesv : gesv_routine R) (no_name X1 X2 : name) (t : tensor S R) (pairs : list (nat * nat)) (q : Z).
  Hypothesis HX : X1 <> X2.
  Hypothesis W : wf_tensor t.
  Let A := map fst pairs.
  Let B := map snd pairs.
  Hypothesis HPm : Permutation (t_names t) (A ++ B).
  Hypothesis HM : forall a b s d, In (a, b) pairs -> In (s, d) (emap (edge_named (tlegs t) a)) <-> In (sneg s, d) (emap (edge_named (tlegs t) b)).
  Hypothesis HP : length pairs <= 1 \/ forall s : S, sneg s = s.

  (** is the last name the first of a pair? *)
  Definition by_column : bool := match t_names t with [] => true | _ => mem_name (last (t_names t) 0) A end.

  Lemma xt_nodup : NoDup (A ++ B).
  Proof. eapply Permutation_NoDup; [exact HPm|apply W]. Qed.
  Lemma xt_incl : incl (A ++ B) (t_names t).
  Proof. intros x Hx. eapply Permutation_in; [apply Permutation_sym; exact HPm|exact Hx]. Qed.

  Lemma rc_first : forall x y a, length x = length pairs -> In a A -> coord (row_column pairs x y) a = coord (combine A x) a.
  Proof.
    intros x y a Lx Ha. unfold row_column. fold A B. destruct (NoDup_halves _ _ _ xt_nodup) as [N1 _]. destruct (find_combine A x a N1) as [v [Hv _]]; [unfold A; now rewrite map_length|exact Ha|].
    unfold coord. now rewrite mfind_app, Hv.
  Qed.
  Lemma rc_second : forall x y a b, length x = length pairs -> length y = length pairs -> In (a, b) pairs -> coord (row_column pairs x y) b = opposite (coord (combine A y) a).
  Proof.
    intros x y a b Lx Ly Hab. unfold row_column. fold A B. pose proof xt_nodup as Hnd. destruct (NoDup_halves _ _ _ Hnd) as [N1 N2].
    apply In_nth_error in Hab as [u Hu]. assert (Ha : nth_error A u = Some a) by (unfold A; now rewrite nth_error_map, Hu). assert (Hb : nth_error B u = Some b) by (unfold B; now rewrite nth_error_map, Hu).
    destruct (found_pair A B opposite y u a b N1 N2) as [v [E1 [E2 E3]]]; auto; try (unfold A, B; now rewrite map_length).
    unfold coord. rewrite mfind_app, find_combine_none, E3, E2; [reflexivity|unfold A; now rewrite map_length|]. intro Hc. apply (app_disjoint _ _ _ b Hnd Hc). eapply nth_error_In; eauto.
  Qed.

  Lemma both_orders : forall (put : bool) (X Y : nat) (U V : list nat), (if put then [X; Y] else [Y; X]) = map fst (if put then [(X, U); (Y, V)] else [(Y, V); (X, U)]).
  Proof. now intros []. Qed.

  Theorem exponential_sym : exists cnt idx (M : S -> list R),
    numbering (mp t A) cnt idx /\
    (forall c, In c (tuples (mp t A)) -> length (M (total c)) = cnt (total c) * cnt (total c)) /\
    (forall x y, in_range (mp t A) x -> in_range (mp t A) y -> total x = total y ->
       nth (cell by_column (cnt (total x)) (idx x) (idx y)) (M (total x)) rzero = element t (row_column pairs x y)) /\
    ((forall c, In c (tuples (mp t A)) -> exists A' F', length F' = cnt (total c) * cnt (total c) /\
        matrix_exponential (env_junk E) gesv (cnt (total c)) (M (total c)) (repeat (env_junk E) (cnt (total c) * cnt (total c))) q = Ok (A', F')) ->
     exists r re, exponential E gesv no_name X1 X2 t pairs q = Ok r /\ wf_tensor r /\ Permutation (t_names t) (t_names r) /\
       maps_of re = mp t (t_names r) /\ t_edges r = prune_from (t_blocks r) 0 re /\ map fst (t_blocks r) = map fst (block_list (mp t (t_names r))) /\
       forall x y A' F', in_range (mp t A) x -> in_range (mp t A) y -> total x = total y ->
         matrix_exponential (env_junk E) gesv (cnt (total x)) (M (total x)) (repeat (env_junk E) (cnt (total x) * cnt (total x))) q = Ok (A', F') ->
         const_at r (row_column pairs x y) = Ok (nth (cell by_column (cnt (total x)) (idx x) (idx y)) F' rzero)).
  Proof.
    destruct (exp_pairs_ok t pairs (wf_nodup _ W) HPm) as [found [Hf [Hpf Hlast]]].
    set (l1 := map fst found). set (l2 := map snd found).
    assert (P1 : Permutation A l1) by (unfold A, l1; now apply Permutation_map).
    assert (P2 : Permutation B l2) by (unfold B, l2; now apply Permutation_map).
    assert (Hq : Permutation (t_names t) (l1 ++ l2)) by (etransitivity; [exact HPm|now apply Permutation_app]).
    assert (IA : incl A (t_names t)) by (intros x Hx; apply xt_incl, in_or_app; auto).
    assert (I1 : incl l1 (t_names t)) by (intros x Hx; eapply Permutation_in; [apply Permutation_sym; exact Hq|]; apply in_or_app; auto).
    assert (I2 : incl l2 (t_names t)) by (intros x Hx; eapply Permutation_in; [apply Permutation_sym; exact Hq|]; apply in_or_app; auto).
    destruct (NoDup_halves _ _ _ xt_nodup) as [NA NB].
    assert (SA : sorted_maps (mp t A)) by (now apply mp_sorted).
    set (m1 := mp t l1) in *. set (m2 := mp t l2) in *.
    assert (S1 : sorted_maps m1) by (now apply mp_sorted). assert (S2 : sorted_maps m2) by (now apply mp_sorted).
    assert (Lf : length found = length pairs) by (symmetry; now apply Permutation_length).
    assert (Hopp : Forall2 opp m1 m2).
    { unfold m1, m2, mp, l1, l2. apply Forall2_map_l, Forall2_map_r. apply Forall2_map_l, Forall2_map_r. apply Forall2_same. intros [a b] Hab. cbn [fst snd].
      assert (Ha : In a l1) by (now apply (in_map fst) in Hab). assert (Hb : In b l2) by (now apply (in_map snd) in Hab).
      split; [apply named_sorted; auto|]. split; [apply named_sorted; auto|]. intros s d. apply HM. eapply Permutation_in; [apply Permutation_sym; exact Hpf|exact Hab]. }
    destruct (match_facts m1 m2 Hopp) as [K1 [K2 K3]].
    { destruct HP as [HL|HZ]; [left|right; exact HZ]. unfold m1, mp, l1. rewrite !map_length. lia. }
    assert (PA : forall s, present (mp t A) s = present m1 s).
    { intro s. destruct (present (mp t A) s) eqn:Ea; symmetry.
      - exact (present_perm_imp t A l1 s W IA NA P1 Ea).
      - destruct (present m1 s) eqn:E1; [|reflexivity]. rewrite <- Ea. symmetry. apply (present_perm_imp t l1 A s W I1); [eapply Permutation_NoDup; eauto|now apply Permutation_sym|exact E1]. }
    set (cnt := fun s => merged_dim m1 s). set (c := fun x : list entry => coord (combine A x)). set (idx := fun x : list entry => snd (fuse m1 (map (c x) l1))).
    assert (LenA : forall x, in_range (mp t A) x -> length x = length pairs).
    { intros x H. apply in_range_length in H. unfold mp in H. rewrite map_length in H. rewrite H. unfold A. now rewrite map_length. }
    assert (LA : length A = length pairs) by (unfold A; now rewrite map_length).
    assert (HcA : forall x, in_range (mp t A) x -> map (c x) A = x).
    { intros x H. unfold c. apply combine_coords; [exact NA|]. rewrite (LenA x H). exact LA. }
    assert (Hr1 : forall x, in_range (mp t A) x -> in_range m1 (map (c x) l1)).
    { intros x H. unfold m1, mp. apply (in_range_perm _ _ A); [|rewrite HcA by exact H; exact H]. intros n Hn. eapply Permutation_in; [apply Permutation_sym; exact P1|exact Hn]. }
    assert (Ht1 : forall x, in_range (mp t A) x -> total (map (c x) l1) = total x).
    { intros x H. rewrite <- (HcA x H) at 2. apply total_perm. now apply Permutation_sym. }
    assert (Hnum : numbering (mp t A) cnt idx).
    { split; [|split].
      - intros x H. unfold idx, cnt. rewrite <- (Ht1 x H). apply fuse_bound; auto.
      - intros x y Hx Hy Et Ei. assert (Ef : map (c x) l1 = map (c y) l1).
        { apply (fuse_injective m1); auto. unfold idx in Ei. unfold fuse in *. cbn [snd] in Ei. rewrite Ei, (Ht1 x Hx), (Ht1 y Hy), Et. reflexivity. }
        rewrite <- (HcA x Hx), <- (HcA y Hy). apply map_ext_in. intros n Hn. assert (Hn1 : In n l1) by (eapply Permutation_in; eauto).
        exact (proj1 (map_ext_in_iff) Ef n Hn1).
      - intros s i Hi. destruct (fuse_surjective m1 s i S1 Hi) as [p [Hp Ep]].
        assert (Lp : length l1 = length p) by (apply in_range_length in Hp; unfold m1, mp in Hp; rewrite map_length in Hp; congruence).
        assert (N1 : NoDup l1) by (eapply Permutation_NoDup; eauto).
        set (d := coord (combine l1 p)). assert (Hd : map d l1 = p) by (now apply combine_coords).
        assert (HxA : in_range (mp t A) (map d A)). { unfold mp. apply (in_range_perm _ _ l1); [|now rewrite Hd]. intros n Hn. eapply Permutation_in; eauto. }
        assert (Hm : map (c (map d A)) l1 = p).
        { rewrite <- Hd. apply map_ext_in. intros n Hn. assert (HnA : In n A) by (eapply Permutation_in; [apply Permutation_sym; exact P1|exact Hn]).
          pose proof (HcA _ HxA) as HH. exact (proj1 (map_ext_in_iff) HH n HnA). }
        exists (map d A). split; [exact HxA|]. split.
        + rewrite <- (Ht1 _ HxA), Hm. unfold fuse in Ep. congruence.
        + unfold idx. rewrite Hm, Ep. reflexivity. }
    set (put := negb by_column).
    set (a1 := mkArgs [] [] [] (of_list [(X1, l1); (X2, l2)]) (if by_column then [X2; X1] else [X1; X2]) false [] [] [] [] [] : @eo_args S).
    assert (Hnn : a_new_names a1 = if put then [X1; X2] else [X2; X1]) by (cbn [a1 a_new_names]; unfold put; now destruct by_column).
    destruct (regroup2 Nf E t W put a1 X1 X2 l1 l2 HX eq_refl eq_refl eq_refl eq_refl Hnn Hq) as [m [ef [ec [Y1 [Y2 [Y3 [Y4 [Y5 [Y6 Y7]]]]]]]]].
    fold m1 m2 in Y5, Y6, Y7.
    assert (Nm : t_names m = if put then [X1; X2] else [X2; X1]).
    { assert (F1 : forall n x, In (n, x) [(X1, l1); (X2, l2)] -> mfind n (a_merge a1) = Some x).
      { intros n x H. cbn [a1 a_merge]. apply (of_list_find nat (list nat) _ _); [|exact H]. cbn [map fst]. repeat constructor; simpl; intuition. }
      assert (Ff1 : mfind X1 (a_merge a1) = Some l1) by (apply F1; simpl; auto). assert (Ff2 : mfind X2 (a_merge a1) = Some l2) by (apply F1; simpl; auto).
      assert (G : groups a1 = if put then [l1; l2] else [l2; l1]). { unfold groups, merge_groups. rewrite Hnn. destruct put; cbn [map]; now rewrite Ff1, Ff2. }
      destruct (regroup E t a1 W eq_refl eq_refl eq_refl) as [m' [re [Z1 [_ [Z3 _]]]]].
      { intro Hc. rewrite Hc in Ff1. discriminate. } { rewrite Hnn. destruct put; repeat constructor; simpl; intuition. }
      { rewrite G. destruct put; cbn [concat]; rewrite app_nil_r; [exact Hq|]. etransitivity; [exact Hq|apply Permutation_app_comm]. } { intro H. rewrite Nf in H. discriminate. }
      rewrite Y1 in Z1. injection Z1 as <-. rewrite Z3. exact Hnn. }
    assert (Em : t_edges m = if put then [ef; ec] else [ec; ef]).
    { pose proof (wf_rank _ Y2) as HL. rewrite Nm in HL. destruct (t_edges m) as [|e0 [|e1 [|? ?]]]; destruct put; cbn [length nth_error] in *; try discriminate; congruence. }
    set (key := fun s => if put then [s; sneg s] else [sneg s; s]).
    set (M := fun s => match mfind (key s) (t_blocks m) with Some d => d | None => [] end).
    assert (HMs : forall s, present m1 s = true -> mfind (key s) (t_blocks m) = Some (M s) /\ length (M s) = cnt s * cnt s /\
      forall pos pt, assigns pos (t_names t) pt -> in_range (maps_of (t_edges t)) pt -> total (map (coord pos) l1) = s -> total (map (coord pos) l2) = sneg s ->
        nth (at1 put (merged_dim m1 s) (merged_dim m2 (sneg s)) 0 (snd (joined (tlegs t) l1 pos)) (snd (joined (tlegs t) l2 pos))) (M s) rzero = element t pos).
    { intros s Ps. destruct (Y7 s Ps) as [data [D1 [D2 D3]]]; [rewrite K1; exact Ps|]. unfold M, key. rewrite D1. split; [reflexivity|]. split; [rewrite D2, K2; reflexivity|exact D3]. }
    assert (Pt : forall x y, in_range (mp t A) x -> in_range (mp t A) y -> total x = total y -> present m1 (total x) = true /\
       map (coord (row_column pairs x y)) l1 = map (c x) l1 /\ map (coord (row_column pairs x y)) l2 = map opposite (map (c y) l1) /\
       total (map (coord (row_column pairs x y)) l1) = total x /\ total (map (coord (row_column pairs x y)) l2) = sneg (total x) /\
       snd (fuse m1 (map (coord (row_column pairs x y)) l1)) = idx x /\ snd (fuse m2 (map (coord (row_column pairs x y)) l2)) = idx y).
    { intros x y Hx Hy Et. split. { rewrite <- PA. now apply present_point. }
      assert (C1 : map (coord (row_column pairs x y)) l1 = map (c x) l1).
      { apply map_ext_in. intros n Hn. apply rc_first; [now apply LenA|]. eapply Permutation_in; [apply Permutation_sym; exact P1|exact Hn]. }
      assert (C2 : map (coord (row_column pairs x y)) l2 = map opposite (map (c y) l1)).
      { unfold l1, l2. rewrite !map_map. apply map_ext_in. intros [a b] Hab. cbn [fst snd]. apply rc_second; auto. eapply Permutation_in; [apply Permutation_sym; exact Hpf|exact Hab]. }
      split; [exact C1|]. split; [exact C2|]. rewrite C1, C2. split; [now apply Ht1|]. split; [rewrite opposite_total, Ht1 by exact Hy; congruence|]. split; [reflexivity|]. rewrite K3; [reflexivity|now apply Hr1]. }
    assert (Ha : forall ns x y, Permutation (t_names t) ns -> in_range (mp t A) x -> in_range (mp t A) y ->
       assigns (row_column pairs x y) ns (map (coord (row_column pairs x y)) ns) /\ in_range (mp t ns) (map (coord (row_column pairs x y)) ns)).
    { intros ns x y Hns Hx Hy. assert (Hall : forall n, In n ns -> exists v, mfind n (row_column pairs x y) = Some v).
      { intros n Hn. assert (HnAB : In n (A ++ B)) by (eapply Permutation_in; [|exact Hn]; etransitivity; [apply Permutation_sym; exact Hns|exact HPm]).
        apply mfind_Some_In. unfold row_column. fold A B. rewrite map_app, !combine_map_fst; [exact HnAB| |]; rewrite ?map_length, ?(LenA _ Hx), ?(LenA _ Hy); unfold A, B; now rewrite map_length. }
      split.
      - unfold assigns. rewrite map_map. apply map_ext_in. intros n Hn. destruct (Hall n Hn) as [v Hv]. unfold coord. now rewrite Hv.
      - unfold mp. apply in_range_named. intros n Hn. assert (HnAB : In n (l1 ++ l2)) by (eapply Permutation_in; [|exact Hn]; etransitivity; [apply Permutation_sym; exact Hns|exact Hq]).
        apply in_app_or in HnAB. destruct HnAB as [Hn1|Hn2].
        + rewrite rc_first; [|now apply LenA|eapply Permutation_in; [apply Permutation_sym; exact P1|exact Hn1]]. pose proof (Hr1 x Hx) as HR. unfold m1, mp in HR. exact (proj1 (in_range_named _ _ _) HR n Hn1).
        + unfold l2 in Hn2. apply in_map_iff in Hn2 as [[a b] [Eb Hab]]. cbn [snd] in Eb. subst b. assert (Hab' : In (a, n) pairs) by (eapply Permutation_in; [apply Permutation_sym; exact Hpf|exact Hab]).
          rewrite (rc_second x y a n) by auto. assert (Ha1 : In a l1) by (now apply (in_map fst) in Hab). pose proof (Hr1 y Hy) as HR. unfold m1, mp in HR. destruct (proj1 (in_range_named _ _ _) HR a Ha1) as [d [D1 D2]].
          exists d. unfold opposite. cbn [fst snd]. split; [|exact D2]. now apply (HM a n). }
    assert (Ae : forall x y, at1 put (cnt (total x)) (cnt (total x)) 0 (idx x) (idx y) = cell by_column (cnt (total x)) (idx x) (idx y)).
    { intros x y. unfold at1, cell, put. destruct by_column; cbn [negb]; lia. }
    exists cnt, idx, M. split; [exact Hnum|]. split.
    { intros tu Htu. assert (Ps : present m1 (total tu) = true). { rewrite <- PA. unfold present. apply existsb_exists. exists tu. split; [exact Htu|apply eqb_refl]. } apply HMs. exact Ps. }
    split.
    { intros x y Hx Hy Et. destruct (Pt x y Hx Hy Et) as [Ps [C1 [C2 [T1 [T2 [J1 J2]]]]]]. destruct (HMs _ Ps) as [_ [_ D3]]. destruct (Ha (t_names t) x y (Permutation_refl _) Hx Hy) as [Ha1 Ha2].
      rewrite <- (D3 (row_column pairs x y) _ Ha1); [| |exact T1|exact T2].
      - unfold joined. fold (mp t l1) (mp t l2). fold m1 m2. rewrite J1, J2, K2. change (merged_dim m1 (total x)) with (cnt (total x)). now rewrite Ae.
      - unfold mp in Ha2. rewrite <- (map_map (edge_named (tlegs t)) emap), (legs_to_edges t W) in Ha2. exact Ha2. }
    intro Hexp.
    assert (Hexp' : forall s, present m1 s = true -> exists A' F', length F' = cnt s * cnt s /\ matrix_exponential (env_junk E) gesv (cnt s) (M s) (repeat (env_junk E) (cnt s * cnt s)) q = Ok (A', F')).
    { intros s Ps. rewrite <- PA in Ps. unfold present in Ps. apply existsb_exists in Ps as [tu [Htu Es]]. apply eqb_eq in Es. subst s. now apply Hexp. }
    assert (HBk : forall k data, In (k, data) (t_blocks m) -> exists s, k = key s /\ present m1 s = true /\ data = M s).
    { intros k data HI. pose proof (wf_blocks_sorted (t_core m) (wf_tcore _ Y2)) as Hso. change (c_blocks (t_core m)) with (t_blocks m) in Hso.
      apply (In_mfind (t_blocks m)) in HI; [|exact Hso]. destruct (wf_find_block (t_core m) k data (wf_tcore _ Y2) HI) as [Hz [ds [Hd _]]].
      change (c_edges (t_core m)) with (t_edges m) in Hd. rewrite Em in Hd.
      assert (Hk2 : exists s0 s1 d0 d1, k = [s0; s1] /\ mfind s0 (emap (if put then ef else ec)) = Some d0 /\ mfind s1 (emap (if put then ec else ef)) = Some d1).
      { destruct put; cbn [maps_of map] in Hd; (destruct k as [|s0 [|s1 [|? ?]]]; cbn [dims_of] in Hd; [discriminate| | |];
          [destruct (mfind s0 _); discriminate| |destruct (mfind s0 _); [destruct (mfind s1 _)|]; discriminate];
          destruct (mfind s0 _) as [d0|] eqn:E0; [|discriminate]; destruct (mfind s1 _) as [d1|] eqn:E1; [|discriminate]; exists s0, s1, d0, d1; auto). }
      destruct Hk2 as [s0 [s1 [d0 [d1 [-> [E0 E1]]]]]]. unfold ssum in Hz. cbn [fold_left] in Hz. rewrite sadd_0_l in Hz. apply sadd_eq_0 in Hz. subst s1.
      exists (if put then s0 else sneg s0). assert (Hk : [s0; sneg s0] = key (if put then s0 else sneg s0)) by (unfold key; destruct put; [reflexivity|now rewrite sneg_invol]).
      split; [exact Hk|]. split.
      - destruct put.
        + rewrite Y5 in E0. destruct (present m2 (sneg s0)); [|discriminate]. now destruct (present m1 s0).
        + rewrite Y6 in E0. now destruct (present m1 (sneg s0)).
      - unfold M. rewrite <- Hk, HI. reflexivity. }
    assert (Hn0 : forall s, present m1 s = true -> exists e, nth_error (t_edges m) 0 = Some e /\ exists s0, nth_error (key s) 0 = Some s0 /\ mfind s0 (emap e) = Some (cnt s)).
    { intros s Ps. rewrite Em. unfold key. destruct put; cbn [nth_error]; eexists; (split; [reflexivity|]); eexists; (split; [reflexivity|]).
      - rewrite Y5, K1, Ps. reflexivity.
      - rewrite Y6, sneg_invol, K1, Ps, K2. reflexivity. }
    pose (P := fun u v : list S * list R => length (snd v) = length (snd u) /\ forall s A' F', fst u = key s -> present m1 s = true ->
       matrix_exponential (env_junk E) gesv (cnt s) (M s) (repeat (env_junk E) (cnt s * cnt s)) q = Ok (A', F') -> snd v = F').
    assert (Hkey : forall s s', key s = key s' -> s = s') by (intros s s' H; unfold key in H; destruct put; injection H; auto).
    destruct (mapM_Forall2 _ _ (exp_block E gesv m q) (fun u v => fst v = fst u /\ P u v) (t_blocks m)) as [blocks [Q1 Q2]].
    { intros [k data] HI. destruct (HBk k data HI) as [s [-> [Ps ->]]]. destruct (Hexp' s Ps) as [A' [F' [LF HF]]]. destruct (HMs s Ps) as [_ [LM _]].
      exists (key s, F'). split.
      - unfold exp_block. destruct (Hn0 s Ps) as [e [N1 [s0 [N2 N3]]]]. rewrite N1. cbn [fst snd get_or_ub bind]. rewrite N2. cbn [get_or_ub bind]. rewrite N3. cbn [at_or_throw bind]. rewrite LM, HF. reflexivity.
      - split; [reflexivity|]. split; cbn [fst snd]; [congruence|]. intros s' A2 F2 Ek _ H. apply Hkey in Ek. subst s'. congruence. }
    assert (Hsh : shape blocks = shape (t_blocks m)).
    { unfold shape. clear - Q2. induction Q2 as [|u v l l' [E1 [E2 _]] H IH]; [reflexivity|]. cbn [map]. f_equal; [congruence|exact IH]. }
    set (p' := mkTensor (t_names m) (mkCore (t_edges m) blocks)).
    assert (Wp : wf_tensor p').
    { destruct Y2 as [A1 A2 A3]. constructor; [|exact A2|exact A3]. apply (shape_wf (t_core m)); [exact A1|reflexivity|exact Hsh]. }
    set (edge_of := fun n => match mfind n (tlegs t) with Some e => mkEdge false (emap e) | None => mkEdge false [] end).
    assert (Eo : forall n, emap (edge_of n) = emap (edge_named (tlegs t) n)) by (intro n; unfold edge_of, edge_named; now destruct (mfind n (tlegs t))).
    set (f1 := map (fun n => (n, edge_of n)) l1). set (f2 := map (fun n => (n, edge_of n)) l2).
    assert (Fn : forall l : list nat, map fst (map (fun n => (n, edge_of n)) l) = l) by (intro l; rewrite map_map; cbn [fst]; apply map_id).
    assert (Fm : forall l : list nat, lmaps (map (fun n => (n, edge_of n)) l) = mp t l) by (intro l; unfold lmaps, mp; rewrite map_map; cbn [snd]; apply map_ext; exact Eo).
    set (pl := if put then [f1; f2] else [f2; f1]).
    set (nr := if by_column then l2 ++ l1 else l1 ++ l2).
    assert (Hcn : map fst (concat pl) = nr).
    { unfold pl, nr, put, f1, f2. destruct by_column; cbn [negb concat]; rewrite app_nil_r, map_app, !Fn; reflexivity. }
    assert (Hcm : concat (map lmaps pl) = mp t nr).
    { unfold pl, nr, put, f1, f2. destruct by_column; cbn [negb map concat]; rewrite app_nil_r, !Fm; unfold mp; now rewrite map_app. }
    assert (Hnr : Permutation (t_names t) nr) by (unfold nr; destruct by_column; [etransitivity; [exact Hq|apply Permutation_app_comm]|exact Hq]).
    set (a3 := mkArgs [] (of_list [(X1, f1); (X2, f2)]) [] [] nr false [] [] [] [] [] : @eo_args S).
    assert (F3 : forall n x, In (n, x) [(X1, f1); (X2, f2)] -> mfind n (a_split a3) = Some x).
    { intros n x H. cbn [a3 a_split]. apply (of_list_find nat (list (nat * edge S)) _ _); [|exact H]. cbn [map fst]. repeat constructor; simpl; intuition. }
    assert (Hef : forall s, present m1 s = true -> mfind s (emap ef) = Some (cnt s)) by (intros s Ps; rewrite Y5, K1, Ps; reflexivity).
    assert (Hec : forall s, present m1 s = true -> mfind (sneg s) (emap ec) = Some (cnt s)) by (intros s Ps; rewrite Y6, sneg_invol, K1, Ps, K2; reflexivity).
    destruct (split_all Nf E p' pl a3 Wp) as [r [re2 [R1 [R2 [R3 [R4 [R5 [R6 R7]]]]]]]].
    { cbn [t_names p']. rewrite Nm. unfold pl. now destruct put. } { reflexivity. } { reflexivity. } { reflexivity. }
    { intro Hc. pose proof (F3 X1 f1 (or_introl eq_refl)) as H. rewrite Hc in H. discriminate. }
    { intros n ps Hnp. cbn [t_names p'] in Hnp. rewrite Nm in Hnp. apply F3. unfold pl in Hnp. destruct put; cbn [combine In] in *; tauto. }
    { intros n ps H. assert (Hk : In n (map fst (a_split a3))) by (apply mfind_In in H; apply in_map_iff; exists (n, ps); auto).
      cbn [a3 a_split] in Hk. apply (proj1 (of_list_keys nat (list (nat * edge S)) _ _ _ _)) in Hk. cbn [map fst In] in Hk.
      destruct Hk as [<-|[<-|[]]]; [rewrite (F3 X1 f1) in H by (simpl; auto)|rewrite (F3 X2 f2) in H by (simpl; auto)]; injection H as <-; unfold pl; destruct put; simpl; auto. }
    { cbn [a3 a_new_names]. now rewrite Hcn. }
    { rewrite Hcn. eapply Permutation_NoDup; [exact Hnr|apply W]. }
    { intros l Hl. assert (Hl' : exists ns, l = map (fun n => (n, edge_of n)) ns /\ incl ns (t_names t)) by (unfold pl in Hl; destruct put; destruct Hl as [<-|[<-|[]]]; [exists l1|exists l2|exists l2|exists l1]; split; auto).
      destruct Hl' as [ns [-> Hns]]. rewrite Forall_map. apply Forall_forall. intros n Hn. cbn [snd]. rewrite Eo. apply named_sorted; auto. }
    { intros gks HG Hz _. change (t_edges p') with (t_edges m). rewrite Em.
      assert (HG2 : exists ka kb da db, dims_of m1 ka = Some da /\ dims_of m2 kb = Some db /\ gks = (if put then [ka; kb] else [kb; ka]) /\ ssum kb = sneg (ssum ka)).
      { unfold pl in HG. destruct put; inversion HG as [|? k1 ? gk' [ds1 G1] HG']; subst; inversion HG' as [|? k2 ? gk2 [ds2 G2] HG'']; subst; inversion HG''; subst; cbn [concat] in Hz; rewrite app_nil_r, ssum_app in Hz;
          unfold f1, f2 in G1, G2; rewrite Fm in G1, G2; apply sadd_eq_0 in Hz.
        - exists k1, k2, ds1, ds2. auto.
        - exists k2, k1, ds2, ds1. repeat split; auto. rewrite Hz, sneg_invol. reflexivity. }
      destruct HG2 as [ka [kb [da [db [G1 [G2 [-> G4]]]]]]].
      assert (Ps : present m1 (ssum ka) = true) by (apply present_iff; eauto).
      unfold pl. destruct put; cbn [combine]; constructor; cbn [fst snd]; try (constructor; [|constructor]; cbn [fst snd]); rewrite ?G4; exists (cnt (ssum ka)); (split; [auto|]); unfold f1, f2; rewrite Fm;
        fold m1; fold m2; rewrite ?K2; apply le_n. }
    rewrite Hcm in R4, R6, R7. rewrite Hcn in R3, R7.
    exists r, re2. split.
    { unfold exponential. rewrite Hf. cbn [bind]. rewrite Nf.
      assert (Hhalf : Nat.div2 (length (t_names t)) - length found = 0).
      { rewrite (Permutation_length HPm), app_length. unfold A, B. rewrite !map_length, Lf. replace (length pairs + length pairs) with (2 * length pairs) by lia. rewrite Nat.div2_double. lia. }
      rewrite Hhalf. cbn [repeat app map]. fold l1 l2.
      assert (Hsw : (match t_names t with [] => Ok true | _ => match l1 with [] => UB | _ => Ok (Nat.eqb (last (t_names t) 0) (last l1 0)) end end) = Ok by_column).
      { unfold by_column. destruct (t_names t) as [|n0 ns0] eqn:En; [reflexivity|]. destruct Hlast as [H1 H2]; [discriminate|]. rewrite <- En. rewrite <- En in H2. fold l1 in H2.
        assert (Eb : Nat.eqb (last (t_names t) 0) (last l1 0) = mem_name (last (t_names t) 0) A).
        { destruct (mem_name (last (t_names t) 0) A) eqn:Em2.
          - apply Nat.eqb_eq. apply H2. now apply mem_name_In in Em2.
          - apply Nat.eqb_neq. intro Hc. apply H2 in Hc. apply mem_name_false in Em2. contradiction. }
        rewrite Eb. unfold l1. destruct found; [contradiction|reflexivity]. }
      rewrite Hsw. cbn [bind]. fold a1. rewrite Y1. cbn [bind]. rewrite Q1. cbn [bind]. fold edge_of. fold f1 f2. fold nr. exact R1. }
    split; [exact R2|]. split; [rewrite R3; exact Hnr|]. rewrite R3. split; [exact R4|]. split; [exact R5|]. split; [exact R6|].
    intros x y A' F' Hx Hy Et HF. destruct (Pt x y Hx Hy Et) as [Ps [C1 [C2 [T1 [T2 [J1 J2]]]]]]. destruct (Ha nr x y Hnr Hx Hy) as [Ha1 Ha2]. set (pos := row_column pairs x y) in *.
    assert (Hz : ssum (map fst (map (coord pos) nr)) = szero).
    { change (total (map (coord pos) nr) = szero). rewrite (total_perm (coord pos) nr (l1 ++ l2)) by (etransitivity; [apply Permutation_sym; exact Hnr|exact Hq]). unfold total in *. rewrite !map_app, ssum_app, T1, T2. apply sadd_neg_r. }
    specialize (R7 pos _ Ha1 Ha2 Hz). cbv zeta in R7. destruct R7 as [V1 [V2 _]].
    assert (Hkp : forallb (fun u => kp (fst u) (snd u) (total (map (coord pos) (map fst (fst u))))) (combine pl (t_edges p')) = true).
    { change (t_edges p') with (t_edges m). rewrite Em. unfold pl, f1, f2.
      assert (G1 : forall l, kp l ef (total x) = true) by (intro l; unfold kp, mmem; rewrite (Hef _ Ps); now destruct (Nat.leb _ 1)).
      assert (G2 : forall l, kp l ec (sneg (total x)) = true) by (intro l; unfold kp, mmem; rewrite (Hec _ Ps); now destruct (Nat.leb _ 1)).
      destruct put; cbn [combine forallb fst snd]; rewrite !Fn, T1, T2, G1, G2; reflexivity. }
    destruct (V2 Hkp) as [_ [v [V3 V4]]].
    destruct (const_at_elem r pos (map (coord pos) nr) R2) as [w [U1 U2]]; [rewrite R3; exact Ha1|exact V1|]. rewrite U2. f_equal. rewrite U1 in V4. injection V4 as ->.
    symmetry. apply nth_error_nth. rewrite <- V3.
    destruct (HMs _ Ps) as [D1 [D2 _]]. destruct (Forall2_keys _ _ P _ _ Q2 D1) as [v' [D4 [D5 D6]]]. cbn [fst snd] in D5, D6. rewrite (D6 (total x) A' F' eq_refl Ps HF) in D4.
    assert (Fu1 : fuse (lmaps f1) (map (coord pos) (map fst f1)) = (total x, idx x)) by (unfold f1; rewrite Fm, Fn; fold m1; rewrite <- J1, <- T1; unfold fuse; reflexivity).
    assert (Fu2 : fuse (lmaps f2) (map (coord pos) (map fst f2)) = (sneg (total x), idx y)) by (unfold f2; rewrite Fm, Fn; fold m2; rewrite <- J2, <- T2; unfold fuse; reflexivity).
    unfold elem. change (c_edges (t_core p')) with (t_edges m). change (c_blocks (t_core p')) with blocks. rewrite Em.
    unfold pl, cell, key, put in *. destruct by_column; cbn [negb map] in *; rewrite Fu1, Fu2; cbn [map fst snd maps_of dims_of]; rewrite (Hef _ Ps), (Hec _ Ps), D4; cbn [row_major]; f_equal.
  Qed.
End Exp.
