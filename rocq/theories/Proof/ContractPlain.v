(** Contraction of tensors without symmetry: the general coordinate formula. *)
From Coq Require Import String List Bool Arith Lia Sorted Permutation.
From Verif Require Import Base.Outcome Base.SMap Model.Symmetry Model.Edge Model.Core Model.Transpose Model.EdgeOperator Model.Elementwise Model.Contract
  Spec.Blocks Spec.Fuse Spec.Relabel Spec.Contract Proof.SymmetryFacts Proof.LoopFacts Proof.CoreFacts Proof.ConstructFacts Proof.ElemFacts
  Proof.GroupFacts Proof.EdgeOperatorFacts Proof.EdgeOperatorMain Proof.NamedOperator Proof.TransposeFacts Proof.TransposeTensor Proof.TransposeNames Proof.LegFacts Proof.ScalarOpFacts Proof.SumFacts Proof.GemmFacts Proof.RegroupFacts Proof.ContractNames.
Import ListNotations.

Local Notation tlegs t := (combine (t_names t) (t_edges t)).

Section Batch.
  Context {R : Type} {RR : Scalar R}.
  Hypothesis EA : exact_arithmetic R.

  (** the loop over the fused index, lines 767-796 *)
  Definition batch (put1 put2 : bool) (l m n k : nat) (d1 d2 data : list R) : res (list R) :=
    if negb (Nat.eqb m 0) && negb (Nat.eqb n 0) && negb (Nat.eqb k 0) then
      foldM (fun data i => gemm put2 (negb put1) n m k rone d2 (k * n * i) (if put2 then k else n) d1 (m * k * i) (if put1 then k else m)
               data (m * n * i) n) (seq 0 l) data
    else if negb (Nat.eqb m 0) && negb (Nat.eqb n 0) then Ok (map (fun _ => rzero) data)
    else Ok data.
  Definition at1 (put1 : bool) (m k i j x : nat) : nat := m * k * i + (if put1 then j * k + x else x * m + j).
  Lemma at1_lt : forall put1 l m k i j x, i < l -> j < m -> x < k -> at1 put1 m k i j x < l * m * k.
  Proof.
    intros put1 l m k i j x Hi Hj Hx. unfold at1.
    assert (Datatypes.S i * (m * k) <= l * (m * k)) by (apply Nat.mul_le_mono_r; lia).
    destruct put1.
    - assert (Datatypes.S j * k <= m * k) by (apply Nat.mul_le_mono_r; lia). lia.
    - assert (Datatypes.S x * m <= k * m) by (apply Nat.mul_le_mono_r; lia). lia.
  Qed.
  Lemma batch_ok : forall put1 put2 l m n k d1 d2 data, length d1 = l * m * k -> length d2 = l * n * k -> length data = l * (m * n) ->
    exists data', batch put1 put2 l m n k d1 d2 data = Ok data' /\ length data' = length data /\
      forall i j q, i < l -> j < m -> q < n -> nth_error data' ((i * m + j) * n + q) =
        Some (rsum (map (fun x => rmul (nth (at1 put1 m k i j x) d1 rzero) (nth (at1 put2 n k i q x) d2 rzero)) (seq 0 k))).
  Proof.
    intros put1 put2 l m n k d1 d2 data L1 L2 L. unfold batch.
    set (V := fun i j q => rsum (map (fun x => rmul (nth (at1 put1 m k i j x) d1 rzero) (nth (at1 put2 n k i q x) d2 rzero)) (seq 0 k))).
    destruct (Nat.eqb_spec m 0) as [->|Hm]; [exists data; cbn [negb andb]; split; [reflexivity|]; split; [reflexivity|]; intros; lia|].
    destruct (Nat.eqb_spec n 0) as [->|Hn]; [exists data; cbn [negb andb]; split; [reflexivity|]; split; [reflexivity|]; intros; lia|].
    cbn [negb andb]. destruct (Nat.eqb_spec k 0) as [->|Hk]; cbn [negb andb].
    - exists (map (fun _ => rzero) data). split; [reflexivity|]. split; [apply map_length|]. intros i j q Hi Hj Hq. rewrite nth_error_map.
      destruct (nth_error data ((i * m + j) * n + q)) eqn:En; [reflexivity|]. apply nth_error_None in En. exfalso.
      assert (Datatypes.S i * (m * n) <= l * (m * n)) by (apply Nat.mul_le_mono_r; lia).
      assert (Datatypes.S j * n <= m * n) by (apply Nat.mul_le_mono_r; lia). lia.
    - set (step := fun (data0 : list R) i => gemm put2 (negb put1) n m k rone d2 (k * n * i) (if put2 then k else n) d1 (m * k * i) (if put1 then k else m) data0 (m * n * i) n).
      assert (G : forall l', l' <= l -> exists data', foldM step (seq 0 l') data = Ok data' /\ length data' = length data /\
        forall i j q, i < l' -> j < m -> q < n -> nth_error data' ((i * m + j) * n + q) = Some (V i j q)).
      { induction l' as [|l' IH]; intro Hl.
        - exists data. split; [reflexivity|]. split; [reflexivity|]. intros; lia.
        - destruct IH as [c [Ec [Lc Pc]]]; [lia|]. rewrite seq_S, foldM_app, Ec. cbn [plus bind foldM].
          unfold step at 1.
          assert (Hr : (Datatypes.S l') * (m * n) <= l * (m * n)) by (apply Nat.mul_le_mono_r; lia).
          destruct (gemm_ok put2 (negb put1) n m k rone d2 (k * n * l') (if put2 then k else n) d1 (m * k * l') (if put1 then k else m) c (m * n * l')
                     (fun q j => V l' j q)) as [c' [E' [L' [P1 P2]]]].
          + intros q j Hq Hj. cbv beta. rewrite (gemm_entry_ok EA _ _ k d2 _ _ d1 _ _ q j (fun x => nth (at1 put2 n k l' q x) d2 rzero) (fun x => nth (at1 put1 m k l' j x) d1 rzero)).
            * unfold V. f_equal. apply rsum_ext. intros x _. apply (ea_mul_comm _ EA).
            * intros x Hx. replace (k * n * l' + _) with (at1 put2 n k l' q x) by (unfold at1; destruct put2; lia).
              apply nth_error_nth'. rewrite L2. apply at1_lt; lia.
            * intros x Hx. replace (m * k * l' + _) with (at1 put1 m k l' j x) by (unfold at1; destruct put1; cbn [negb]; lia).
              apply nth_error_nth'. rewrite L1. apply at1_lt; lia.
          + rewrite Lc, L. lia.
          + exists c'. rewrite E'. cbn [bind]. split; [reflexivity|]. split; [congruence|]. intros i j q Hi Hj Hq.
            assert (HB : Datatypes.S j * n <= m * n) by (apply Nat.mul_le_mono_r; lia).
            destruct (Nat.eq_dec i l') as [->|Hne].
            * replace ((l' * m + j) * n + q) with (m * n * l' + q + j * n) by lia. rewrite P1 by auto. now rewrite (ea_mul_1 _ EA).
            * rewrite P2; [apply Pc; auto; lia|]. left.
              assert (Datatypes.S i * (m * n) <= l' * (m * n)) by (apply Nat.mul_le_mono_r; lia). lia. }
      destruct (G l (le_n _)) as [data' H]. exists data'. exact H.
  Qed.
End Batch.

Section Plain.
  Context {S R : Type} {SS : Sym S} {SL : SymLaws S} {RR : Scalar R}.
  Notation entry := (S * nat)%type.
  Hypothesis Ns : @is_nosym S SS = true.
  Hypothesis Nf : @is_fermi S SS = false.
  Hypothesis EA : exact_arithmetic R.

  Lemma map_eqb_refl : forall m : list entry, map_eqb m m = true.
  Proof.
    intro m. unfold map_eqb. rewrite Nat.eqb_refl. cbn [andb]. induction m as [|[s d] m IH]; [reflexivity|]. cbn [combine forallb fst snd]. now rewrite eqb_refl, Nat.eqb_refl.
  Qed.
  Lemma app_inv_eq : forall A (l1 l2 k1 k2 : list A), l1 ++ l2 = k1 ++ k2 -> length l1 = length k1 -> l1 = k1 /\ l2 = k2.
  Proof. induction l1 as [|x l1 IH]; intros l2 [|y k1] k2 H L; simpl in L; try discriminate; auto. cbn [app] in H. injection H as -> H. destruct (IH _ _ _ H); [lia|]. subst. auto. Qed.
  Lemma ones_inj : forall ds ds' : list nat, map (fun d => [(@szero S SS, d)]) ds = map (fun d => [(szero, d)]) ds' -> ds = ds'.
  Proof. induction ds as [|d ds IH]; intros [|d' ds'] H; cbn [map] in H; try discriminate; auto. injection H as H1 H2. f_equal; auto. Qed.
  Lemma plain_prune : forall (bl : list (list S * list R)) es i ds ds', maps_of es = map (fun d => [(szero, d)]) ds ->
    maps_of (prune_from bl i es) = map (fun d => [(szero, d)]) ds' -> prune_from bl i es = es.
  Proof.
    intros bl es. unfold maps_of. induction es as [|e es IH]; intros i ds ds' H1 H2; [reflexivity|]. destruct ds as [|d ds]; [discriminate|]. destruct ds' as [|d' ds']; [discriminate|].
    cbn [map prune_from emap] in *. injection H1 as H1 H1'. injection H2 as H2 H2'. f_equal; [|eapply IH; eauto].
    rewrite H1 in *. cbn [filter] in *. destruct (used_in bl i (fst (szero, d))); [|discriminate]. destruct e as [ar m]. cbn [emap earrow] in *. now rewrite H1.
  Qed.
  (** a new plain tensor *)
  Lemma plain_make : forall (junk : R) names (es : list (edge S)) ds, NoDup names -> length names = length es -> maps_of es = map (fun d => [(szero, d)]) ds ->
    exists (t : tensor S R) key, make_tensor junk names es false = Ok t /\ wf_tensor t /\ t_names t = names /\ t_edges t = es /\ t_blocks t = [(key, repeat junk (prod ds))].
  Proof.
    intros junk names es ds Hn HL Hm.
    assert (Hsm : sorted_maps (maps_of es)).
    { rewrite Hm. unfold sorted_maps. rewrite Forall_map. apply Forall_forall. intros d _. repeat constructor. }
    destruct (make_tensor_ok junk names es false Hsm Hn HL) as [t [H1 [H2 [H3 [H4 H5]]]]]. rewrite andb_false_r in H5. rewrite <- H4 in H5.
    assert (HI : In (map (fun _ => szero) ds, prod ds) (block_list (maps_of es))).
    { apply in_block_list. split; [|apply (plain_charge Ns)]. apply dims_of_choice; [exact Hsm|].
      rewrite Hm. rewrite (plain_dims Ns) by (now rewrite map_length). eauto. }
    assert (HB : t_blocks t <> []).
    { rewrite H4. unfold junk_blocks. destruct (block_list (maps_of es)); [destruct HI|discriminate]. }
    destruct (plain_block Ns t H2 HB) as [key [data Eb]]. exists t, key.
    assert (He : t_edges t = es).
    { rewrite H5. eapply plain_prune; [exact Hm|]. rewrite <- H5. apply (plain_maps Ns t H2 HB). }
    do 4 (split; [assumption|]). rewrite Eb. f_equal. f_equal. rewrite Eb in H4. unfold junk_blocks in H4.
    destruct (block_list (maps_of es)) as [|[k0 n0] bl]; [destruct HI|]. cbn [map fst snd] in H4. injection H4 as -> -> Hbl. symmetry in Hbl. apply map_eq_nil in Hbl. subst bl.
    destruct HI as [HI|[]]. injection HI as -> ->. reflexivity.
  Qed.

  (** ** the sum over the flattened index of the contracted edges *)
  Lemma found_pair : forall (ns1 ns2 : list nat) (f : entry -> entry) (pt : list entry) i a b, NoDup ns1 -> NoDup ns2 -> length ns1 = length pt -> length ns2 = length pt ->
    nth_error ns1 i = Some a -> nth_error ns2 i = Some b ->
    exists q, nth_error pt i = Some q /\ mfind a (combine ns1 pt) = Some q /\ mfind b (combine ns2 (map f pt)) = Some (f q).
  Proof.
    intros ns1 ns2 f pt i a b N1 N2 L1 L2 Ha Hb. destruct (nth_error pt i) as [q|] eqn:Eq.
    - exists q. split; [reflexivity|]. split; apply In_mfind_nodup.
      + now rewrite combine_map_fst.
      + apply (nth_error_In _ i). now apply combine_nth_some.
      + rewrite combine_map_fst; [exact N2|now rewrite map_length].
      + apply (nth_error_In _ i). apply combine_nth_some; [exact Hb|]. rewrite nth_error_map, Eq. reflexivity.
    - exfalso. apply nth_error_None in Eq. assert (nth_error ns1 i <> None) as H by congruence. apply nth_error_Some in H. lia.
  Qed.
  Lemma flatten_sum : forall (ns cs : list nat) (d : nat -> nat) (f : list entry -> R) (g : nat -> R), NoDup ns -> Permutation ns cs ->
    (forall pt, in_range (map (fun n => [(szero, d n)]) ns) pt -> f pt = g (row_major (map d cs) (map (fun n => snd (coord (combine ns pt) n)) cs))) ->
    rsum (map f (points (map (fun n => [(szero, d n)]) ns))) = rsum (map g (seq 0 (prod (map d cs)))).
  Proof.
    intros ns cs d f g Hn Hp Hf.
    assert (Hc : NoDup cs) by (eapply Permutation_NoDup; eauto).
    assert (Hmm : forall l : list nat, map (fun n => [(@szero S SS, d n)]) l = map (fun x => [(szero, x)]) (map d l)) by (intro; now rewrite map_map).
    assert (Hco : forall idx n i, length idx = length ns -> nth_error ns i = Some n -> nth_error idx i = Some (snd (coord (combine ns (map (fun i => (@szero S SS, i)) idx)) n))).
    { intros idx n i HL Hi. destruct (found_pair ns ns (fun x => x) (map (fun i => (szero, i)) idx) i n n Hn Hn) as [q [Q1 [Q2 _]]]; auto; [now rewrite map_length|now rewrite map_length|].
      unfold coord. rewrite Q2. rewrite nth_error_map in Q1. destruct (nth_error idx i); [|discriminate]. cbn [option_map] in Q1. injection Q1 as <-. reflexivity. }
    assert (Hlt : forall pt, in_range (map (fun n => [(@szero S SS, d n)]) ns) pt -> Forall2 lt (map (fun n => snd (coord (combine ns pt) n)) cs) (map d cs)).
    { intros pt Hpt. rewrite Hmm in Hpt. apply plain_point in Hpt as [idx [-> Hi]]. apply Forall2_map_l, Forall2_map_r, Forall2_same. intros n Hin.
      assert (Hin' : In n ns) by (eapply Permutation_in; [apply Permutation_sym; exact Hp|exact Hin]). apply In_nth_error in Hin' as [i Hn'].
      pose proof (Forall2_len _ _ _ _ _ Hi) as HL. rewrite map_length in HL. pose proof (Hco idx n i HL Hn') as E.
      assert (E2 : nth_error (map d ns) i = Some (d n)) by (rewrite nth_error_map, Hn'; reflexivity).
      exact (Forall2_nth_error _ _ _ _ _ Hi i _ _ E E2). }
    apply (rsum_bij EA) with (h := fun pt => row_major (map d cs) (map (fun n => snd (coord (combine ns pt) n)) cs)).
    - apply NoDup_points. unfold sorted_maps. rewrite Forall_map. apply Forall_forall. intros n _. repeat constructor.
    - apply seq_NoDup.
    - intros pt Hpt. apply in_points in Hpt. split; [|symmetry; now apply Hf]. apply in_seq. split; [lia|]. cbn [plus]. apply row_major_lt. now apply Hlt.
    - intros x y Hx Hy E. apply in_points in Hx, Hy. apply row_major_inj in E; [|now apply Hlt|now apply Hlt].
      rewrite Hmm in Hx, Hy. apply plain_point in Hx as [ix [-> Hx]]. apply plain_point in Hy as [iy [-> Hy]]. f_equal.
      pose proof (Forall2_len _ _ _ _ _ Hx) as Lx. pose proof (Forall2_len _ _ _ _ _ Hy) as Ly. rewrite map_length in Lx, Ly.
      apply nth_error_ext. intro i. destruct (nth_error ns i) as [n|] eqn:En.
      + rewrite (Hco ix n i Lx En), (Hco iy n i Ly En). f_equal.
        assert (Hin : In n cs) by (eapply Permutation_in; [exact Hp|]; eapply nth_error_In; eauto).
        exact (proj1 map_ext_in_iff E n Hin).
      + apply nth_error_None in En. transitivity (@None nat); [|symmetry]; apply nth_error_None; lia.
    - intros z Hz. apply in_seq in Hz as [_ Hz]. cbn [plus] in Hz. apply row_major_surj in Hz as [ic [Hc1 Hc2]].
      pose proof (Forall2_len _ _ _ _ _ Hc1) as Lc. rewrite map_length in Lc.
      set (idx := map (fun n => snd (coord (combine cs (map (fun i => (@szero S SS, i)) ic)) n)) ns).
      assert (Li : length idx = length ns) by (unfold idx; now rewrite map_length).
      assert (Hcc : forall n i, nth_error cs i = Some n -> nth_error ic i = Some (snd (coord (combine cs (map (fun i => (@szero S SS, i)) ic)) n))).
      { intros n i Hi. destruct (found_pair cs cs (fun x => x) (map (fun i => (szero, i)) ic) i n n Hc Hc) as [q [Q1 [Q2 _]]]; auto; [now rewrite map_length|now rewrite map_length|].
        unfold coord. rewrite Q2. rewrite nth_error_map in Q1. destruct (nth_error ic i); [|discriminate]. cbn [option_map] in Q1. injection Q1 as <-. reflexivity. }
      assert (Hval : map (fun n => snd (coord (combine ns (map (fun i => (@szero S SS, i)) idx)) n)) cs = ic).
      { apply nth_error_ext. intro i. rewrite nth_error_map. destruct (nth_error cs i) as [n|] eqn:En; cbn [option_map].
        - rewrite (Hcc n i En). assert (Hin : In n ns) by (eapply Permutation_in; [apply Permutation_sym; exact Hp|]; eapply nth_error_In; eauto).
          apply In_nth_error in Hin as [j Hj]. pose proof (Hco idx n j Li Hj) as E. unfold idx in E at 1. rewrite nth_error_map, Hj in E. cbn [option_map] in E. congruence.
        - symmetry. apply nth_error_None. apply nth_error_None in En. lia. }
      exists (map (fun i => (szero, i)) idx). split; [|now rewrite Hval].
      apply in_points. rewrite Hmm. apply plain_point. exists idx. split; [reflexivity|]. unfold idx. apply Forall2_map_l, Forall2_map_r, Forall2_same.
      intros n Hin. assert (Hin' : In n cs) by (eapply Permutation_in; eauto). apply In_nth_error in Hin' as [i Hi].
      apply (Forall2_nth_error _ _ _ _ _ Hc1 i _ _ (Hcc n i Hi)). rewrite nth_error_map, Hi. reflexivity.
  Qed.

  (** ** the theorem *)
  Definition fused_names (names1 names2 c1 c2 : list nat) : list nat :=
    map fst (of_list (map (fun n => (n, tt)) (filter (fun n => mem_name n names2 && negb (mem_name n c1) && negb (mem_name n c2)) names1))).

  Section Main.
  Variables (E : @env R) (I : internal) (t1 t2 : tensor S R) (pairs : list (nat * nat)).
  Hypothesis HI : NoDup [i_contract_0 I; i_contract_1 I; i_contract_2 I].
  Hypothesis W1 : wf_tensor t1.
  Hypothesis W2 : wf_tensor t2.
  Hypothesis B1 : t_blocks t1 <> [].
  Hypothesis B2 : t_blocks t2 <> [].
  Hypothesis P1 : incl (map fst pairs) (t_names t1).
  Hypothesis P2 : incl (map snd pairs) (t_names t2).
  Hypothesis N1 : NoDup (map fst pairs).
  Hypothesis N2 : NoDup (map snd pairs).
  Hypothesis HE : forall a b, In (a, b) pairs -> emap (edge_named (tlegs t1) a) = emap (edge_named (tlegs t2) b).
  Let fuse := fused_names (t_names t1) (t_names t2) (map fst pairs) (map snd pairs).
  Hypothesis HF : forall n, In n fuse -> emap (edge_named (tlegs t1) n) = emap (edge_named (tlegs t2) n).
  Let free1 := filter (fun n => negb (mem_name n (map fst pairs)) && negb (mem_name n fuse)) (t_names t1).
  Let free2 := filter (fun n => negb (mem_name n (map snd pairs)) && negb (mem_name n fuse)) (t_names t2).

  Lemma in_fuse : forall n, In n fuse <-> In n (t_names t1) /\ In n (t_names t2) /\ ~ In n (map fst pairs) /\ ~ In n (map snd pairs).
  Proof.
    intro n. unfold fuse, fused_names. destruct (sorted_set (filter (fun n => mem_name n (t_names t2) && negb (mem_name n (map fst pairs)) && negb (mem_name n (map snd pairs))) (t_names t1))) as [_ [_ H]].
    rewrite H, filter_In, !andb_true_iff, !negb_true_iff, mem_name_In, !mem_name_false. tauto.
  Qed.
  Lemma fuse_nodup : NoDup fuse.
  Proof. apply sorted_set. Qed.
  Lemma in_free1 : forall n, In n free1 <-> In n (t_names t1) /\ ~ In n (map fst pairs) /\ ~ In n fuse.
  Proof. intro n. unfold free1. rewrite filter_In, andb_true_iff, !negb_true_iff, !mem_name_false. tauto. Qed.
  Lemma in_free2 : forall n, In n free2 <-> In n (t_names t2) /\ ~ In n (map snd pairs) /\ ~ In n fuse.
  Proof. intro n. unfold free2. rewrite filter_In, andb_true_iff, !negb_true_iff, !mem_name_false. tauto. Qed.

  Lemma result_names : NoDup (fuse ++ free1 ++ free2).
  Proof.
    apply NoDup_app_intro; [apply fuse_nodup| |].
    - apply NoDup_app_intro; [apply NoDup_filter; apply W1|apply NoDup_filter; apply W2|].
      intros n H1 H2. apply in_free1 in H1 as [A1 [A2 A3]]. apply in_free2 in H2 as [C1 [C2 C3]]. apply A3. apply in_fuse. auto.
    - intros n H1 H2. apply in_app_or in H2 as [H2|H2]; [apply in_free1 in H2|apply in_free2 in H2]; tauto.
  Qed.

  Lemma three_groups : forall (t : tensor S R) (cs fr : list nat), wf_tensor t -> NoDup cs -> NoDup fr -> (forall n, In n (t_names t) <-> In n fuse \/ In n cs \/ In n fr) ->
    (forall n, In n cs -> ~ In n fuse /\ ~ In n fr) -> (forall n, In n fr -> ~ In n fuse) ->
    Permutation (t_names t) (fuse ++ fr ++ cs) /\ Permutation (t_names t) (fuse ++ cs ++ fr).
  Proof.
    intros t cs fr W Hc Hf H Hd1 Hd2.
    split; apply NoDup_Permutation; try apply W.
    - apply NoDup_app_intro; [apply fuse_nodup| |].
      + apply NoDup_app_intro; auto. intros n A B. now destruct (Hd1 n B).
      + intros n A B. apply in_app_or in B as [B|B]; [now apply (Hd2 n)|now destruct (Hd1 n B)].
    - intro n. rewrite !in_app_iff, H. tauto.
    - apply NoDup_app_intro; [apply fuse_nodup| |].
      + apply NoDup_app_intro; auto. intros n A B. now destruct (Hd1 n A).
      + intros n A B. apply in_app_or in B as [B|B]; [now destruct (Hd1 n B)|now apply (Hd2 n)].
    - intro n. rewrite !in_app_iff, H. tauto.
  Qed.

  (** both merges in one form: the fused, the free and the contracted edges of a tensor *)
  Lemma regroup3 : forall (t : tensor S R) (put : bool) (a : @eo_args S) fn cn cs fr, wf_tensor t -> t_blocks t <> [] ->
    NoDup [i_contract_0 I; fn; cn] -> 
    a_rename a = [] -> a_split a = [] -> a_cut a = [] -> a_merge a = of_list [(fn, fr); (cn, cs); (i_contract_0 I, fuse)] ->
    a_new_names a = (if put then [i_contract_0 I; fn; cn] else [i_contract_0 I; cn; fn]) ->
    Permutation (t_names t) (fuse ++ fr ++ cs) -> Permutation (t_names t) (fuse ++ cs ++ fr) ->
    let l := prod (map (dim_of t) fuse) in let m := prod (map (dim_of t) fr) in let k := prod (map (dim_of t) cs) in
    exists r key data, edge_operator E t a = Ok r /\ t_blocks r = [(key, data)] /\
      maps_of (t_edges r) = (if put then [[(szero, l)]; [(szero, m)]; [(szero, k)]] else [[(szero, l)]; [(szero, k)]; [(szero, m)]]) /\
      length data = l * m * k /\
      forall pos, (forall n, In n (t_names t) -> exists i, mfind n pos = Some (szero, i) /\ i < dim_of t n) ->
        nth (at1 put m k (row_major (map (dim_of t) fuse) (map (fun n => snd (coord pos n)) fuse))
                         (row_major (map (dim_of t) fr) (map (fun n => snd (coord pos n)) fr))
                         (row_major (map (dim_of t) cs) (map (fun n => snd (coord pos n)) cs))) data rzero = element t pos.
  Proof.
    intros t put a fn cn cs fr W B Hd Hren Hsplit Hcut Hmerge Hnew Hp1 Hp2 l m k.
    assert (D : i_contract_0 I <> fn /\ i_contract_0 I <> cn /\ fn <> cn).
    { inversion Hd as [|? ? X1 Hd']; subst. inversion Hd' as [|? ? X2 _]; subst. simpl in X1, X2. intuition. }
    destruct D as [D1 [D2 D3]].
    assert (F : forall n x, In (n, x) [(fn, fr); (cn, cs); (i_contract_0 I, fuse)] -> mfind n (a_merge a) = Some x).
    { intros n x H. rewrite Hmerge. apply (of_list_find nat (list nat) _ _); [|exact H]. cbn [map fst]. repeat constructor; simpl; intuition. }
    assert (G : groups a = if put then [fuse; fr; cs] else [fuse; cs; fr]).
    { unfold groups, merge_groups. rewrite Hnew. destruct put; cbn [map];
      rewrite (F _ fuse) by (simpl; auto); rewrite (F fn fr) by (simpl; auto); rewrite (F cn cs) by (simpl; auto); reflexivity. }
    destruct (plain_regroup Ns E t a Nf W B Hren Hsplit Hcut) as [r [key [data [H1 [H2 [H3 [H4 [H5 H6]]]]]]]].
    { rewrite Hmerge. intro Hc. assert (X : mfind fn (of_list [(fn, fr); (cn, cs); (i_contract_0 I, fuse)]) = Some fr) by (rewrite <- Hmerge; apply F; simpl; auto). rewrite Hc in X. discriminate. }
    { rewrite Hnew. destruct put; repeat constructor; simpl; intuition. }
    { intros n Hn. rewrite Hnew in Hn. destruct put; simpl in Hn; decompose [or] Hn; subst; try contradiction; eexists; apply F; simpl; eauto. }
    { rewrite G. destruct put; cbn [concat]; rewrite app_nil_r; assumption. }
    exists r, key, data. split; [exact H1|]. split; [exact H2|]. rewrite G in *. split; [destruct put; exact H3|].
    split. { rewrite H5. unfold l, m, k. destruct put; cbn [map]; unfold prod; cbn [fold_right]; lia. }
    intros pos Hpos. destruct (H6 pos Hpos) as [v [V1 V2]]. unfold element. rewrite V1. apply nth_error_nth. rewrite <- V2. f_equal.
    unfold at1, m, k. destruct put; cbn [map]; unfold row_major at 4; cbn [combine fold_left fst snd]; lia.
  Qed.

  Theorem contract_plain : exists r, contract E I t1 t2 pairs = Ok r /\ wf_tensor r /\
    t_names r = fuse ++ free1 ++ free2 /\ t_blocks r <> [] /\
    t_edges r = map (edge_named (tlegs t1)) (fuse ++ free1) ++ map (edge_named (tlegs t2)) free2 /\
    forall pos, (forall n, In n (t_names r) -> exists i, mfind n pos = Some (szero, i) /\ i < dim_of r n) ->
      const_at r pos = Ok (contract_sum t1 t2 pairs pos).
  Proof.
    set (es := map (edge_named (tlegs t1)) (fuse ++ free1) ++ map (edge_named (tlegs t2)) free2).
    assert (Hpres : present_pairs (t_names t1) (t_names t2) pairs = pairs) by (now apply present_all).
    assert (Hdup : has_dup (map fst pairs) || has_dup (map snd pairs) = false).
    { apply orb_false_iff. split; now apply has_dup_false. }
    assert (Hfe : mapM (fun n => bind (edge_of t1 n) (fun e1 => bind (edge_of t2 n) (fun e2 =>
                 if edge_eqb e1 e2 then Ok e1 else tat_error "Cannot fuse two edge with different shape"))) fuse = Ok (map (edge_named (tlegs t1)) fuse)).
    { apply mapM_all_ok. intros n Hn. pose proof Hn as Hn'. apply in_fuse in Hn' as [A1 [A2 _]]. rewrite (edge_of_ok t1 n W1 A1), (edge_of_ok t2 n W2 A2). cbn [bind].
      replace (edge_eqb _ _) with true; [reflexivity|]. symmetry. unfold edge_eqb. rewrite Nf. cbn [negb orb]. rewrite andb_true_r. rewrite (HF n Hn). apply map_eqb_refl. }
    destruct (plan_perm (t_names t1) (t_names t2) free1 free2 pairs (wf_nodup _ W1) (wf_nodup _ W2) N1 N2 P1 P2) as [common [put1 [put2 [Hplan Hcp]]]].
    set (cs1 := map fst common). set (cs2 := map snd common).
    assert (Q1 : Permutation (map fst pairs) cs1) by (now apply Permutation_map).
    assert (Q2 : Permutation (map snd pairs) cs2) by (now apply Permutation_map).
    assert (Hin1 : forall n, In n cs1 <-> In n (map fst pairs)) by (intro n; split; apply Permutation_in; auto using Permutation_sym).
    assert (Hin2 : forall n, In n cs2 <-> In n (map snd pairs)) by (intro n; split; apply Permutation_in; auto using Permutation_sym).
    destruct (three_groups t1 cs1 free1 W1) as [G1 G1'].
    { eapply Permutation_NoDup; eauto. } { apply NoDup_filter, W1. }
    { intro n. rewrite in_free1, Hin1. pose proof (proj1 (in_fuse n)) as Hfu. destruct (in_dec Nat.eq_dec n (map fst pairs)) as [Hi|Hi].
      - split; [tauto|]. intros _. now apply P1.
      - split; [|tauto]. intro H. destruct (in_dec Nat.eq_dec n fuse) as [Hj|Hj]; tauto. }
    { intros n Hn. apply Hin1 in Hn. split; [rewrite in_fuse; tauto|rewrite in_free1; tauto]. } { intros n Hn. rewrite in_free1 in Hn. tauto. }
    destruct (three_groups t2 cs2 free2 W2) as [G2 G2'].
    { eapply Permutation_NoDup; eauto. } { apply NoDup_filter, W2. }
    { intro n. rewrite in_free2, Hin2. pose proof (proj1 (in_fuse n)) as Hfu. destruct (in_dec Nat.eq_dec n (map snd pairs)) as [Hi|Hi].
      - split; [tauto|]. intros _. now apply P2.
      - split; [|tauto]. intro H. destruct (in_dec Nat.eq_dec n fuse) as [Hj|Hj]; tauto. }
    { intros n Hn. apply Hin2 in Hn. split; [rewrite in_fuse; tauto|rewrite in_free2; tauto]. } { intros n Hn. rewrite in_free2 in Hn. tauto. }
    set (C0 := i_contract_0 I) in *. set (C1 := i_contract_1 I) in *. set (C2 := i_contract_2 I) in *.
    set (a1 := mkArgs [] [] [] (of_list [(C1, free1); (C2, cs1); (C0, fuse)]) (if put1 : bool then [C0; C1; C2] else [C0; C2; C1]) false [] [] [] [] [] : @eo_args S).
    set (a2 := mkArgs [] [] [] (of_list [(C2, free2); (C1, cs2); (C0, fuse)]) (if put2 : bool then [C0; C2; C1] else [C0; C1; C2]) false [] [] [] [] [] : @eo_args S).
    destruct (regroup3 t1 put1 a1 C1 C2 cs1 free1 W1 B1 HI eq_refl eq_refl eq_refl eq_refl eq_refl G1 G1') as [m1 [key1 [d1 [X1 [X2 [X3 [X4 X5]]]]]]].
    destruct (regroup3 t2 put2 a2 C2 C1 cs2 free2 W2 B2) as [m2 [key2 [d2 [Y1 [Y2 [Y3 [Y4 Y5]]]]]]]; auto.
    { eapply Permutation_NoDup; [|exact HI]. constructor. apply perm_swap. }
    set (l := prod (map (dim_of t1) fuse)) in *. set (m := prod (map (dim_of t1) free1)) in *. set (k := prod (map (dim_of t1) cs1)) in *.
    assert (Dfuse : map (dim_of t2) fuse = map (dim_of t1) fuse).
    { apply map_ext_in. intros n Hn. unfold dim_of. now rewrite (HF n Hn). }
    assert (Dpair : forall a b, In (a, b) pairs -> dim_of t1 a = dim_of t2 b) by (intros a b H; unfold dim_of; now rewrite (HE a b H)).
    assert (Dcs : map (dim_of t2) cs2 = map (dim_of t1) cs1).
    { unfold cs1, cs2. rewrite !map_map. apply map_ext_in. intros [a b] H. cbn [fst snd]. symmetry. apply Dpair. eapply Permutation_in; [apply Permutation_sym; exact Hcp|exact H]. }
    rewrite Dfuse, Dcs in Y3, Y4, Y5. fold l in Y3, Y4, Y5. fold k in Y3, Y4, Y5. set (n := prod (map (dim_of t2) free2)) in *.
    (* the product tensor *)
    assert (Ed1 : exists e0 e1 ec, nth_error (t_edges m1) 0 = Some e0 /\ nth_error (t_edges m1) (if put1 then 1 else 2) = Some e1 /\ nth_error (t_edges m1) (if put1 then 2 else 1) = Some ec /\
                    emap e0 = [(szero, l)] /\ emap e1 = [(szero, m)] /\ emap ec = [(szero, k)]).
    { unfold maps_of in X3. destruct (t_edges m1) as [|x0 [|x1 [|x2 [|x3 xs]]]]; cbn [map] in X3; destruct put1; try discriminate; injection X3 as E0 E1 E2; do 3 eexists;
        cbn [nth_error]; repeat split; eassumption. }
    assert (Ed2 : exists e2, nth_error (t_edges m2) (if put2 then 1 else 2) = Some e2 /\ emap e2 = [(szero, n)]).
    { unfold maps_of in Y3. destruct (t_edges m2) as [|x0 [|x1 [|x2 [|x3 xs]]]]; cbn [map] in Y3; destruct put2; try discriminate; injection Y3 as E0 E1 E2; eexists;
        cbn [nth_error]; split; (reflexivity || eassumption). }
    destruct Ed1 as [e0 [e1 [ec [F0 [F1 [Fc [M0 [M1 Mc]]]]]]]]. destruct Ed2 as [e2 [F2 M2]].
    destruct (plain_make (env_junk E) [C0; C1; C2] [e0; e1; e2] [l; m; n] HI eq_refl) as [p [kp [Z1 [Z2 [Z3 [Z4 Z5]]]]]].
    { unfold maps_of. cbn [map]. now rewrite M0, M1, M2. }
    destruct (batch_ok EA put1 put2 l m n k d1 d2 (repeat (env_junk E) (prod [l; m; n])) X4 Y4) as [data [D1 [D2 D3]]].
    { rewrite repeat_length. unfold prod. cbn [fold_right]. lia. }
    (* the result *)
    set (ds := map (dim_of t1) fuse ++ map (dim_of t1) free1 ++ map (dim_of t2) free2).
    assert (Hmaps : maps_of es = map (fun d => [(szero, d)]) ds).
    { unfold maps_of, es, ds. rewrite !map_app, !map_map, app_assoc. f_equal; [f_equal|]; apply map_ext_in; intros x Hx.
      - apply (plain_leg Ns t1 W1 B1). now apply in_fuse in Hx.
      - apply (plain_leg Ns t1 W1 B1). now apply in_free1 in Hx.
      - apply (plain_leg Ns t2 W2 B2). now apply in_free2 in Hx. }
    destruct (plain_make (env_junk E) (fuse ++ free1 ++ free2) es ds result_names) as [r0 [kr [R1 [R2 [R3 [R4 R5]]]]]]; [|exact Hmaps|].
    { unfold es. rewrite !app_length, !map_length, app_length. lia. }
    assert (Hprod : prod ds = l * (m * n)) by (unfold ds; rewrite !prod_app; reflexivity).
    assert (Hlen : length data = prod ds). { rewrite D2, repeat_length, Hprod. unfold prod. cbn [fold_right]. lia. }
    set (r := mkTensor (t_names r0) (mkCore (t_edges r0) [(kr, data)])).
    assert (Wr : wf_tensor r).
    { destruct R2 as [A1 A2 A3]. constructor; [|exact A2|exact A3]. apply (shape_wf (t_core r0)); [exact A1|reflexivity|].
      cbn [r t_core c_blocks]. change (c_blocks (t_core r0)) with (t_blocks r0). rewrite R5. unfold shape. cbn [map fst snd]. rewrite repeat_length. congruence. }
    assert (Br : t_blocks r <> []) by discriminate.
    assert (Hdr : map (dim_of r) (t_names r) = ds).
    { apply ones_inj. rewrite <- (plain_maps Ns r Wr Br), <- Hmaps. unfold r. cbn [t_edges t_core c_edges]. change (t_edges (mkTensor (t_names r0) (mkCore (t_edges r0) [(kr, data)]))) with (t_edges r0). now rewrite R4. }
    assert (Hes : map (edge_named (tlegs t1)) fuse ++ map (edge_named (tlegs t1)) free1 ++ map (edge_named (tlegs t2)) free2 = es).
    { unfold es. now rewrite map_app, app_assoc. }
    exists r. split.
    { unfold contract. rewrite Ns. unfold contract_with_fuse. rewrite Hpres, Hdup.
      change (map fst (of_list (map (fun n => (n, tt)) (filter (fun n => mem_name n (t_names t2) && negb (mem_name n (map fst pairs)) && negb (mem_name n (map snd pairs))) (t_names t1))))) with fuse.
      rewrite Hfe. cbn [bind].
      rewrite !(free_legs t1 (fun n => negb (mem_name n (map fst pairs)) && negb (mem_name n fuse)) W1),
              !(free_legs t2 (fun n => negb (mem_name n (map snd pairs)) && negb (mem_name n fuse)) W2),
              !(free_legs_fst t1 (fun n => negb (mem_name n (map fst pairs)) && negb (mem_name n fuse)) W1),
              !(free_legs_fst t2 (fun n => negb (mem_name n (map snd pairs)) && negb (mem_name n fuse)) W2).
      fold free1 free2. rewrite Hplan. fold cs1 cs2. fold C0 C1 C2. fold a1. rewrite X1. cbn [bind]. fold a2. rewrite Y1. cbn [bind].
      rewrite F0, F1, F2, Fc. cbn [get_or_ub bind]. rewrite Z1. cbn [bind]. rewrite Z4. cbn [nth_error get_or_ub bind]. unfold first_dim, first_block. rewrite M0, M1, M2, Mc.
      cbn [hd_error option_map snd get_or_ub bind]. rewrite Z5, X2, Y2. cbn [hd_error get_or_ub bind snd].
      change (if negb (Nat.eqb m 0) && negb (Nat.eqb n 0) && negb (Nat.eqb k 0)
              then foldM (fun data i => gemm put2 (negb put1) n m k rone d2 (k * n * i) (if put2 then k else n) d1 (m * k * i) (if put1 then k else m) data (m * n * i) n) (seq 0 l) (repeat (env_junk E) (prod [l; m; n]))
              else if negb (Nat.eqb m 0) && negb (Nat.eqb n 0) then Ok (map (fun _ => rzero) (repeat (env_junk E) (prod [l; m; n]))) else Ok (repeat (env_junk E) (prod [l; m; n])))
        with (batch put1 put2 l m n k d1 d2 (repeat (env_junk E) (prod [l; m; n]))).
      rewrite D1. cbn [bind]. rewrite Hes. rewrite R1. cbn [bind]. rewrite R5. cbn [hd_error get_or_ub bind fst]. unfold r. f_equal. f_equal. f_equal.
      cbn [mset]. now rewrite cmp_refl. }
    split; [exact Wr|]. split; [exact R3|]. split; [exact Br|]. split; [exact R4|].
    intros pos Hpos. change (t_names r) with (t_names r0) in *. rewrite R3 in *.
    assert (Hdn : forall x, In x (fuse ++ free1) -> dim_of r x = dim_of t1 x).
    { assert (Hd : map (dim_of r) (fuse ++ free1) ++ map (dim_of r) free2 = map (dim_of t1) (fuse ++ free1) ++ map (dim_of t2) free2).
      { rewrite <- map_app, <- app_assoc, Hdr. unfold ds. now rewrite map_app, <- app_assoc. }
      apply app_inv_eq in Hd as [Hd _]; [|now rewrite !map_length]. intros x Hx. exact (proj1 map_ext_in_iff Hd x Hx). }
    assert (Hdn2 : forall x, In x free2 -> dim_of r x = dim_of t2 x).
    { assert (Hd : map (dim_of r) (fuse ++ free1) ++ map (dim_of r) free2 = map (dim_of t1) (fuse ++ free1) ++ map (dim_of t2) free2).
      { rewrite <- map_app, <- app_assoc, Hdr. unfold ds. now rewrite map_app, <- app_assoc. }
      apply app_inv_eq in Hd as [_ Hd]; [|now rewrite !map_length]. intros x Hx. exact (proj1 map_ext_in_iff Hd x Hx). }
    set (ix := fun x => snd (coord pos x)).
    assert (Hix : forall x, In x (fuse ++ free1 ++ free2) -> mfind x pos = Some (szero, ix x) /\ ix x < dim_of r x).
    { intros x Hx. destruct (Hpos x Hx) as [i [A1 A2]]. unfold ix, coord. rewrite A1. auto. }
    assert (Hasg : assigns pos (t_names r) (map (fun i => (szero, i)) (map ix (t_names r)))).
    { unfold assigns. rewrite !map_map. apply map_ext_in. intros x Hx. change (t_names r) with (t_names r0) in Hx. rewrite R3 in Hx. now apply Hix. }
    destruct (plain_data Ns r Wr Br kr data eq_refl) as [_ Hdata].
    destruct (Hdata pos (map ix (t_names r)) Hasg) as [v [V1 [V2 _]]].
    { apply Forall2_map_l, Forall2_map_r, Forall2_same. intros x Hx. change (t_names r) with (t_names r0) in Hx. rewrite R3 in Hx. now apply Hix. }
    rewrite V2. f_equal.
    (* the flat index splits *)
    set (i := row_major (map (dim_of t1) fuse) (map ix fuse)). set (j := row_major (map (dim_of t1) free1) (map ix free1)). set (q := row_major (map (dim_of t2) free2) (map ix free2)).
    assert (Hi : i < l). { apply row_major_lt. apply Forall2_map_l, Forall2_map_r, Forall2_same. intros x Hx. rewrite <- Hdn by (apply in_or_app; auto). apply Hix. apply in_or_app. auto. }
    assert (Hj : j < m). { apply row_major_lt. apply Forall2_map_l, Forall2_map_r, Forall2_same. intros x Hx. rewrite <- Hdn by (apply in_or_app; auto). apply Hix. apply in_or_app. right. apply in_or_app. auto. }
    assert (Hq : q < n). { apply row_major_lt. apply Forall2_map_l, Forall2_map_r, Forall2_same. intros x Hx. rewrite <- Hdn2 by exact Hx. apply Hix. apply in_or_app. right. apply in_or_app. auto. }
    change (t_names r) with (t_names r0) in V1, Hdr. rewrite R3 in V1. rewrite Hdr in V1. unfold ds in V1. rewrite !map_app in V1.
    rewrite !row_major_app in V1 by (rewrite ?app_length, ?map_length; reflexivity). rewrite prod_app in V1. fold m n i j q in V1.
    replace (i * (m * n) + (j * n + q)) with ((i * m + j) * n + q) in V1 by lia.
    rewrite (D3 i j q Hi Hj Hq) in V1. injection V1 as <-.
    (* the sum *)
    unfold contract_sum. symmetry.
    rewrite (map_ext_in (fun p => emap (edge_named (legs_of t1) (fst p))) (fun p => [(szero, dim_of t1 (fst p))])).
    2: { intros [a b] Hab. apply (plain_leg Ns t1 W1 B1). apply P1. now apply (in_map fst) in Hab. }
    rewrite <- (map_map fst (fun n => [(szero, dim_of t1 n)]) pairs).
    unfold k. apply flatten_sum; [exact N1|exact Q1|]. intros pt Hpt.
    set (pos1 := combine (map fst pairs) pt ++ pos). set (pos2 := combine (map snd pairs) (map opposite pt) ++ pos).
    assert (Hpi : exists idx, pt = map (fun i => (szero, i)) idx /\ Forall2 lt idx (map (fun p => dim_of t1 (fst p)) pairs)).
    { apply plain_point. rewrite map_map. rewrite map_map in Hpt. exact Hpt. }
    destruct Hpi as [idx [Ept Hidx]]. pose proof (Forall2_len _ _ _ _ _ Hidx) as Lidx. rewrite map_length in Lidx.
    assert (Lpt : length pt = length pairs) by (rewrite Ept, map_length; exact Lidx).
    assert (Hpp : forall a b, In (a, b) pairs -> exists z, mfind a (combine (map fst pairs) pt) = Some (szero, z) /\ mfind b (combine (map snd pairs) (map opposite pt)) = Some (szero, z) /\ z < dim_of t1 a).
    { intros a b Hab. apply In_nth_error in Hab as [u Hu].
      destruct (found_pair (map fst pairs) (map snd pairs) opposite pt u a b N1 N2) as [w [U1 [U2 U3]]]; try (rewrite map_length; lia).
      { rewrite nth_error_map, Hu. reflexivity. } { rewrite nth_error_map, Hu. reflexivity. }
      rewrite Ept, nth_error_map in U1. destruct (nth_error idx u) as [z|] eqn:Ez; [|discriminate]. cbn [option_map] in U1. injection U1 as <-.
      exists z. split; [exact U2|]. split; [rewrite U3; unfold opposite; cbn [fst snd]; now rewrite (plain_charge Ns (sneg szero))|].
      apply (Forall2_nth_error _ _ _ _ _ Hidx u _ _ Ez). rewrite nth_error_map, Hu. reflexivity. }
    assert (Hout1 : forall x, ~ In x (map fst pairs) -> mfind x pos1 = mfind x pos).
    { intros x Hx. unfold pos1. rewrite mfind_app, find_combine_none; auto. rewrite map_length. lia. }
    assert (Hout2 : forall x, ~ In x (map snd pairs) -> mfind x pos2 = mfind x pos).
    { intros x Hx. unfold pos2. rewrite mfind_app, find_combine_none; auto. rewrite !map_length. lia. }
    assert (Hc1 : forall a b, In (a, b) pairs -> coord pos1 a = coord (combine (map fst pairs) pt) a /\ coord pos2 b = coord (combine (map fst pairs) pt) a).
    { intros a b Hab. destruct (Hpp a b Hab) as [z [A1 [A2 _]]]. unfold coord, pos1, pos2. rewrite !mfind_app, A1, A2. auto. }
    assert (Hg1 : forall x, In x (t_names t1) -> exists i0, mfind x pos1 = Some (szero, i0) /\ i0 < dim_of t1 x).
    { intros x Hx. destruct (in_dec Nat.eq_dec x (map fst pairs)) as [Hy|Hy].
      - apply in_map_iff in Hy as [[a b] [<- Hab]]. cbn [fst]. destruct (Hpp a b Hab) as [z [A1 [_ A3]]]. exists z. split; [unfold pos1; now rewrite mfind_app, A1|exact A3].
      - rewrite Hout1 by exact Hy. exists (ix x).
        assert (Hx' : In x (fuse ++ free1)).
        { apply in_or_app. destruct (in_dec Nat.eq_dec x fuse) as [Hz|Hz]; [now left|]. right. apply in_free1. auto. }
        rewrite <- Hdn by exact Hx'. apply Hix. rewrite app_assoc. apply in_or_app. auto. }
    assert (Hg2 : forall x, In x (t_names t2) -> exists i0, mfind x pos2 = Some (szero, i0) /\ i0 < dim_of t2 x).
    { intros x Hx. destruct (in_dec Nat.eq_dec x (map snd pairs)) as [Hy|Hy].
      - apply in_map_iff in Hy as [[a b] [<- Hab]]. cbn [snd]. destruct (Hpp a b Hab) as [z [_ [A2 A3]]]. exists z. split; [unfold pos2; now rewrite mfind_app, A2|]. now rewrite <- (Dpair a b Hab).
      - rewrite Hout2 by exact Hy. exists (ix x). destruct (in_dec Nat.eq_dec x fuse) as [Hz|Hz].
        + assert (Ed : dim_of t2 x = dim_of t1 x) by (unfold dim_of; now rewrite (HF x Hz)). rewrite Ed, <- Hdn by (apply in_or_app; auto). apply Hix. apply in_or_app. auto.
        + assert (Hx' : In x free2) by (apply in_free2; auto). rewrite <- Hdn2 by exact Hx'. apply Hix. rewrite app_assoc. apply in_or_app. auto. }
    rewrite <- (X5 pos1 Hg1), <- (Y5 pos2 Hg2).
    assert (J1 : forall ls, (forall x, In x ls -> ~ In x (map fst pairs)) -> map (fun n => snd (coord pos1 n)) ls = map ix ls).
    { intros ls Hls. apply map_ext_in. intros x Hx. unfold ix, coord. now rewrite (Hout1 x (Hls x Hx)). }
    assert (J2 : forall ls, (forall x, In x ls -> ~ In x (map snd pairs)) -> map (fun n => snd (coord pos2 n)) ls = map ix ls).
    { intros ls Hls. apply map_ext_in. intros x Hx. unfold ix, coord. now rewrite (Hout2 x (Hls x Hx)). }
    rewrite (J1 fuse), (J1 free1), (J2 fuse), (J2 free2); try (intros x Hx; first [apply in_fuse in Hx|apply in_free1 in Hx|apply in_free2 in Hx]; tauto).
    fold i j q.
    assert (K1 : map (fun n => snd (coord pos1 n)) cs1 = map (fun n => snd (coord (combine (map fst pairs) pt) n)) cs1).
    { unfold cs1. rewrite !map_map. apply map_ext_in. intros [a b] Hab. cbn [fst]. f_equal. apply (Hc1 a b). eapply Permutation_in; [apply Permutation_sym; exact Hcp|exact Hab]. }
    assert (K2 : map (fun n => snd (coord pos2 n)) cs2 = map (fun n => snd (coord (combine (map fst pairs) pt) n)) cs1).
    { unfold cs1, cs2. rewrite !map_map. apply map_ext_in. intros [a b] Hab. cbn [fst snd]. f_equal. apply (Hc1 a b). eapply Permutation_in; [apply Permutation_sym; exact Hcp|exact Hab]. }
    rewrite K1, K2. reflexivity.
  Qed.
  End Main.
End Plain.

(** ** statements by names *)
Section Final.
  Context {S R : Type} {SS : Sym S} {SL : SymLaws S} {RR : Scalar R}.
  Hypothesis Ns : @is_nosym S SS = true.
  Hypothesis Nf : @is_fermi S SS = false.
  Hypothesis EA : exact_arithmetic R.

  Lemma filter_ext_list : forall A (f g : A -> bool) l, (forall x, f x = g x) -> filter f l = filter g l.
  Proof. intros A f g l H. induction l as [|x l IH]; [reflexivity|]. cbn [filter]. rewrite H, IH. reflexivity. Qed.
  Lemma free_names_two : forall names c f, free_names names (c ++ f) = filter (fun n => negb (mem_name n c) && negb (mem_name n f)) names.
  Proof. intros names c f. unfold free_names. apply filter_ext_list. intro n. unfold member, mem_name. rewrite existsb_app. apply negb_orb. Qed.
  Lemma mapM_throw_in : forall A B (f : A -> res B) msg l, (forall x, In x l -> (exists y, f x = Ok y) \/ f x = tat_error msg) -> (exists x, In x l /\ f x = tat_error msg) -> mapM f l = tat_error msg.
  Proof.
    induction l as [|x l IH]; intros H [z [Hz Ez]]; [destruct Hz|]. cbn [mapM]. destruct (H x (or_introl eq_refl)) as [[y Ey]|Ex]; [|rewrite Ex; reflexivity]. rewrite Ey. cbn [bind].
    rewrite IH; [reflexivity|intros; apply H; now right|]. destruct Hz as [->|Hz]; [rewrite Ey in Ez; discriminate|]. eauto.
  Qed.

  Lemma contract_plain_at : forall (E : @env R) (I : internal) (t1 t2 : tensor S R) pairs, NoDup [i_contract_0 I; i_contract_1 I; i_contract_2 I] ->
    wf_tensor t1 -> wf_tensor t2 -> t_blocks t1 <> [] -> t_blocks t2 <> [] ->
    incl (map fst pairs) (t_names t1) -> incl (map snd pairs) (t_names t2) -> NoDup (map fst pairs) -> NoDup (map snd pairs) ->
    (forall a b, In (a, b) pairs -> emap (edge_named (legs_of t1) a) = emap (edge_named (legs_of t2) b)) ->
    (forall n, In n (t_names t1) -> In n (t_names t2) -> ~ In n (map fst pairs) -> ~ In n (map snd pairs) -> emap (edge_named (legs_of t1) n) = emap (edge_named (legs_of t2) n)) ->
    exists r fused, contract E I t1 t2 pairs = Ok r /\ wf_tensor r /\ t_blocks r <> [] /\
      StronglySorted lt fused /\ (forall n, In n fused <-> In n (t_names t1) /\ In n (t_names t2) /\ ~ In n (map fst pairs) /\ ~ In n (map snd pairs)) /\
      t_names r = fused ++ free_names (t_names t1) (map fst pairs ++ fused) ++ free_names (t_names t2) (map snd pairs ++ fused) /\
      t_edges r = map (edge_named (legs_of t1)) (fused ++ free_names (t_names t1) (map fst pairs ++ fused)) ++ map (edge_named (legs_of t2)) (free_names (t_names t2) (map snd pairs ++ fused)) /\
      forall pos pt, assigns pos (t_names r) pt -> valid_pt (t_core r) pt -> const_at r pos = Ok (contract_sum t1 t2 pairs pos).
  Proof.
    intros E I t1 t2 pairs HI W1 W2 B1 B2 P1 P2 N1 N2 HE HF. unfold legs_of in *.
    destruct (contract_plain Ns Nf EA E I t1 t2 pairs HI W1 W2 B1 B2 P1 P2 N1 N2 HE) as [r [H1 [H2 [H3 [H4 [H5 H6]]]]]].
    { intros n Hn. apply in_fuse in Hn. apply HF; tauto. }
    exists r, (fused_names (t_names t1) (t_names t2) (map fst pairs) (map snd pairs)). rewrite !free_names_two.
    split; [exact H1|]. split; [exact H2|]. split; [exact H4|]. split; [apply sorted_set|]. split; [apply in_fuse|]. split; [exact H3|]. split; [exact H5|].
    intros pos pt Ha [Hr _]. apply H6. change (c_edges (t_core r)) with (t_edges r) in Hr. rewrite (plain_maps Ns r H2 H4) in Hr. apply plain_point in Hr as [idx [-> Hidx]].
    intros n Hn. apply In_nth_error in Hn as [i Hi]. unfold assigns in Ha.
    assert (HL : length idx = length (t_names r)) by (apply Forall2_len in Hidx; rewrite map_length in Hidx; exact Hidx).
    destruct (nth_same_length _ _ _ idx _ _ (eq_sym HL) Hi) as [x Hx]. exists x. split.
    - assert (Hq : nth_error (map (fun n => mfind n pos) (t_names r)) i = nth_error (map Some (map (fun i => (szero, i)) idx)) i) by (now rewrite Ha).
      rewrite !nth_error_map, Hi, Hx in Hq. cbn [option_map] in Hq. now injection Hq.
    - apply (Forall2_nth_error _ _ _ _ _ Hidx i _ _ Hx). rewrite nth_error_map, Hi. reflexivity.
  Qed.

  Lemma contract_plain_mismatch : forall (E : @env R) (I : internal) (t1 t2 : tensor S R) pairs n,
    wf_tensor t1 -> wf_tensor t2 -> incl (map fst pairs) (t_names t1) -> incl (map snd pairs) (t_names t2) -> NoDup (map fst pairs) -> NoDup (map snd pairs) ->
    In n (t_names t1) -> In n (t_names t2) -> ~ In n (map fst pairs) -> ~ In n (map snd pairs) -> emap (edge_named (legs_of t1) n) <> emap (edge_named (legs_of t2) n) ->
    contract E I t1 t2 pairs = tat_error "Cannot fuse two edge with different shape".
  Proof.
    intros E I t1 t2 pairs n W1 W2 P1 P2 N1 N2 A1 A2 A3 A4 HE. unfold contract. rewrite Ns. unfold contract_with_fuse. rewrite (present_all _ _ _ P1 P2).
    rewrite (proj2 (has_dup_false (map fst pairs)) N1), (proj2 (has_dup_false (map snd pairs)) N2). cbn [orb].
    fold (fused_names (t_names t1) (t_names t2) (map fst pairs) (map snd pairs)).
    rewrite (mapM_throw_in _ _ _ "Cannot fuse two edge with different shape"%string); [reflexivity| |].
    - intros x Hx. apply in_fuse in Hx as [X1 [X2 _]]. rewrite (edge_of_ok t1 x W1 X1), (edge_of_ok t2 x W2 X2). cbn [bind]. destruct (edge_eqb _ _); eauto.
    - exists n. split; [apply in_fuse; auto|]. rewrite (edge_of_ok t1 n W1 A1), (edge_of_ok t2 n W2 A2). cbn [bind].
      destruct (edge_eqb (edge_named (tlegs t1) n) (edge_named (tlegs t2) n)) eqn:Ee; [|reflexivity]. exfalso. apply HE. unfold edge_eqb in Ee. apply andb_true_iff in Ee as [Ee _]. now apply map_eqb_eq in Ee.
  Qed.
End Final.

Lemma contract_missing : forall (S R : Type) (SS : Sym S) (RR : Scalar R) (E : @env R) (I : internal) (t1 t2 : tensor S R) pairs,
  contract E I t1 t2 pairs = contract E I t1 t2 (filter (fun p => member (fst p) (t_names t1) && member (snd p) (t_names t2)) pairs).
Proof.
  intros S R SS RR E I t1 t2 pairs. change (filter _ pairs) with (present_pairs (t_names t1) (t_names t2) pairs).
  unfold contract, contract_with_fuse, contract_without_fuse. rewrite !present_idem. reflexivity.
Qed.
Lemma contract_duplicate : forall (S R : Type) (SS : Sym S) (RR : Scalar R) (E : @env R) (I : internal) (t1 t2 : tensor S R) pairs,
  incl (map fst pairs) (t_names t1) -> incl (map snd pairs) (t_names t2) -> ~ NoDup (map fst pairs) \/ ~ NoDup (map snd pairs) ->
  contract E I t1 t2 pairs = tat_error "Duplicated Contract Name".
Proof.
  intros S R SS RR E I t1 t2 pairs P1 P2 H. unfold contract, contract_with_fuse, contract_without_fuse. rewrite !(present_all _ _ _ P1 P2).
  replace (has_dup (map fst pairs) || has_dup (map snd pairs)) with true; [destruct is_nosym; reflexivity|]. symmetry.
  destruct (has_dup (map fst pairs)) eqn:E1; [reflexivity|]. destruct (has_dup (map snd pairs)) eqn:E2; [reflexivity|]. exfalso.
  destruct H as [H|H]; apply H; now apply has_dup_false.
Qed.
