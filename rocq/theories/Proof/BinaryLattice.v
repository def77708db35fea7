(** A lattice survives being written and read. *)
From Coq Require Import List Bool Arith ZArith Lia.
From Verif Require Import Base.Outcome Base.SMap Model.Symmetry Model.Edge Model.Core Model.Names Model.Binary Spec.Binary Spec.Blocks.
From Verif Require Import Proof.SymmetryFacts Proof.LoopFacts Proof.CoreFacts Proof.ElemFacts Proof.BinaryFacts Proof.BinaryTensor.
Import ListNotations.

#[global] Instance PlainLaws_site : PlainLaws (Z * Z) (fun p => fits_int (fst p) /\ fits_int (snd p)).
Proof.
  split; [reflexivity|]. intros pad [x y] [Hx Hy]. cbn [fst snd] in *. pose proof (from_to_bytes pad x Hx) as H. pose proof (from_to_bytes pad y Hy) as H'.
  cbn [from_bytes to_bytes Plain_site fst snd].
  change (firstn 4 (to_bytes pad y ++ to_bytes pad x)) with (to_bytes pad y).
  change (skipn 4 (to_bytes pad y ++ to_bytes pad x)) with (to_bytes pad x). now rewrite H, H'.
Qed.

Definition ix (x : nat) (l : list nat) : nat := match find_index x l with Some i => i | None => 0 end.
Lemma find_index_app : forall x l l' i, find_index x l = Some i -> find_index x (l ++ l') = Some i.
Proof.
  induction l as [|y l IH]; intros l' i H; cbn in *; [discriminate|]. destruct (Nat.eqb x y); [exact H|].
  destruct (find_index x l) as [j|] eqn:E; [|discriminate]. now rewrite (IH l' j eq_refl).
Qed.
Lemma find_index_new : forall x l, find_index x l = None -> find_index x (l ++ [x]) = Some (length l).
Proof.
  induction l as [|y l IH]; intros H; cbn in *; [now rewrite Nat.eqb_refl|]. destruct (Nat.eqb x y); [discriminate|].
  destruct (find_index x l); [discriminate|]. now rewrite IH.
Qed.
Lemma find_index_nth : forall x l i, find_index x l = Some i -> nth_error l i = Some x.
Proof.
  induction l as [|y l IH]; intros i H; cbn in *; [discriminate|]. destruct (Nat.eqb x y) eqn:E.
  - injection H as <-. apply Nat.eqb_eq in E. now subst.
  - destruct (find_index x l) as [j|]; [|discriminate]. injection H as <-. cbn. now apply IH.
Qed.

Lemma pool_spec : forall hs pool (m : list (list (Z * Z) * Z)), msorted (m ++ map (fun h => (fst h, 0%Z)) hs) ->
  exists ext, fold_left pool_step hs (pool, m) = (pool ++ ext, m ++ map (fun h => (fst h, Z.of_nat (ix (snd h) (pool ++ ext)))) hs)
    /\ (forall h, In h hs -> exists i, find_index (snd h) (pool ++ ext) = Some i)
    /\ (forall x, In x ext -> exists h, In h hs /\ snd h = x) /\ length ext <= length hs.
Proof.
  induction hs as [|[p x] hs IH]; intros pool m Hs.
  - exists []. cbn. rewrite !app_nil_r. repeat split; easy.
  - cbn [fold_left pool_step fst snd].
    assert (Hmax : forall k, In k (map fst m) -> cmp k p = Lt).
    { clear - Hs. unfold msorted in Hs. rewrite map_app in Hs. cbn [map fst] in Hs. intros k Hk.
      induction m as [|[k0 v0] m IH]; cbn in *; [easy|]. inversion Hs as [|? ? H1 H2]; subst. destruct Hk as [<-|Hk]; [|now apply IH].
      rewrite Forall_forall in H2. apply H2. apply in_or_app. right. now left. }
    assert (Hs' : forall z, msorted ((m ++ [(p, z)]) ++ map (fun h => (fst h, 0%Z)) hs)).
    { intro z. unfold msorted in *. rewrite !map_app in *. cbn [map fst] in *. now rewrite <- app_assoc. }
    destruct (find_index x pool) as [i|] eqn:Ef.
    + rewrite mset_app_max by auto. destruct (IH pool (m ++ [(p, Z.of_nat i)]) (Hs' _)) as [ext [E [H1 [H2 H3]]]].
      exists ext. repeat split.
      * rewrite E. f_equal. rewrite <- app_assoc. cbn [app map fst snd]. unfold ix at 2. now rewrite (find_index_app _ _ ext i Ef).
      * intros h [<-|Hh]; [cbn; eauto using find_index_app|now apply H1].
      * intros y Hy. destruct (H2 y Hy) as [h [Hh Eh]]. exists h. split; [now right|exact Eh].
      * cbn. lia.
    + rewrite mset_app_max by auto. destruct (IH (pool ++ [x]) (m ++ [(p, Z.of_nat (length pool))]) (Hs' _)) as [ext [E [H1 [H2 H3]]]].
      exists (x :: ext). rewrite <- app_assoc in *. cbn [app] in *. repeat split.
      * rewrite E. f_equal. rewrite <- app_assoc. cbn [app map fst snd]. unfold ix at 2.
        change (x :: ext) with ([x] ++ ext). rewrite app_assoc. now rewrite (find_index_app _ _ ext _ (find_index_new _ _ Ef)).
      * intros h [<-|Hh]; [|now apply H1]. cbn [snd]. exists (length pool). change (x :: ext) with ([x] ++ ext). rewrite app_assoc.
        apply find_index_app. now apply find_index_new.
      * intros y [<-|Hy]; [exists (p, x); split; [now left|reflexivity]|]. destruct (H2 y Hy) as [h [Hh Eh]]. exists h. split; [now right|exact Eh].
      * cbn. lia.
Qed.

Section Lattice.
  Context {S R : Type} {SS : Sym S} {SL : SymLaws S} {PS : Plain S} {RIO : ScalarIO R} {ok_scalar : R -> Prop} {RL : ScalarLaws R ok_scalar} {NIO : NameIO} {RR : Scalar R}.
  Context {ok_charge : S -> Prop} {PL : PlainLaws S ok_charge} {ok_names : list name -> Prop} {NL : NameLaws NIO ok_names}.
  Variables (pad : Z) (junk : R).
  Hypothesis plain_bose : @is_nosym S SS = true -> @is_fermi S SS = false.

  Definition good_tensor (t : tensor S R) : Prop := wf_tensor t /\ has_dimensions t /\ storable ok_charge ok_scalar ok_names t.

  Theorem lattice_round_trip : forall hp l, storable_lattice good_tensor hp l ->
    exists b, dump_lattice pad hp l = Ok b /\
    forall hp0 l0, exists new l', reads (load_lattice pad junk hp0 l0) b (hp0 ++ new, l') /\ same_lattice hp (hp0 ++ new) l l'.
  Proof.
    intros hp l [Hm Hn Hd Hsort Hcount Hterms]. set (hs := hamiltonians l) in *.
    assert (Hs0 : msorted ([] ++ map (fun h => (fst h, 0%Z)) hs)).
    { unfold msorted in *. cbn [app]. rewrite map_map. exact Hsort. }
    destruct (pool_spec hs [] [] Hs0) as [pool [Epool [Hidx [Hpool Hlen]]]]. cbn [app] in Epool, Hidx.
    set (d := mkTensor [] (mkCore [] []) : tensor S R).
    assert (Hgood : forall i, In i pool -> nth_error hp i = Some (nth i hp d) /\ good_tensor (nth i hp d)).
    { intros i Hi. destruct (Hpool i Hi) as [[p j] [Hh Ej]]. cbn in Ej. subst j. destruct (Hterms p i Hh) as [_ [_ [t [Et Gt]]]].
      rewrite (nth_error_nth _ _ d Et). auto. }
    set (tb := fun i => tensor_bytes pad (nth i hp d)).
    set (pm := map (fun h => (fst h, Z.of_nat (ix (snd h) pool))) hs) in *.
    assert (Hpool_small : (Z.of_nat (length pool) < 2 ^ 31)%Z) by lia.
    exists (to_bytes pad (l_m l) ++ to_bytes pad (l_n l) ++ to_bytes pad (l_d l) ++ write_count pad (length pool) ++ concat (map tb pool)
       ++ write_map pad (write_vector pad) (to_bytes pad) pm). split.
    - unfold dump_lattice, pool_of. fold hs. rewrite Epool. cbn [app]. rewrite (mapM_ok _ tb).
      + cbn [bind]. reflexivity.
      + intros i Hi. destruct (Hgood i Hi) as [-> [W [Hdim St]]]. cbn [get_or_ub bind].
        exact (proj1 (tensor_round_trip pad junk plain_bose _ W Hdim St)).
    - intros hp0 l0. set (new := map (fun i => stored (nth i hp d)) pool). exists new.
      set (hs' := map (fun h => (fst h, length hp0 + ix (snd h) pool)) hs). exists (mkLattice (l_m l) (l_n l) (l_d l) hs'). split.
      + intro rest. unfold load_lattice. rewrite <- !app_assoc.
        rewrite (read_plain_back pad); [|apply holding_length|exact Hm]. cbn [bind fst snd].
        rewrite (read_plain_back pad); [|apply holding_length|exact Hn]. cbn [bind fst snd].
        rewrite (read_plain_back pad); [|apply holding_length|exact Hd]. cbn [bind fst snd].
        pose proof (read_list_back pad (load_tensor pad junk) tb (fun i => stored (nth i hp d)) pool) as Hl.
        rewrite (app_assoc (write_count pad (length pool))).
        rewrite Hl; [|unfold fits; lia|].
        2:{ intros i Hi. destruct (Hgood i Hi) as [_ [W [Hdim St]]]. exact (proj2 (tensor_round_trip pad junk plain_bose _ W Hdim St)). }
        cbn [bind fst snd]. fold new. unfold write_map. rewrite <- app_assoc. unfold pm at 1. rewrite map_length.
        rewrite (read_count_back pad) by (unfold fits; lia). cbn [bind fst snd].
        assert (Hlenn : length new = length pool) by apply map_length. rewrite Hlenn.
        assert (Hrep : forall hsb hsa, hs = hsa ++ hsb ->
          repeatM (length hsb) (fun st : list (list (Z * Z) * nat) * stream =>
            bind (read_vector pad (0%Z, 0%Z) (snd st)) (fun ps =>
            bind (read_plain (unwritten Z) (snd ps)) (fun i =>
            bind (if (fst i <? 0)%Z then UB else get_or_ub (nth_error (seq (length hp0) (length pool)) (Z.to_nat (fst i)))) (fun p =>
            Ok (mset (fst ps) p (fst st), snd i)))))
            (map (fun h => (fst h, length hp0 + ix (snd h) pool)) hsa,
             (concat (map (fun kv => write_vector pad (fst kv) ++ to_bytes pad (snd kv)) (map (fun h => (fst h, Z.of_nat (ix (snd h) pool))) hsb)) ++ rest, true))
          = Ok (hs', (rest, true))).
        { induction hsb as [|[p x] hsb IH]; intros hsa E.
          - rewrite app_nil_r in E. subst hsa. reflexivity.
          - cbn [length repeatM map concat fst snd]. rewrite <- !app_assoc.
            assert (Hin : In (p, x) hs) by (rewrite E; apply in_or_app; right; now left).
            destruct (Hterms p x Hin) as [Hp [Hxy _]]. rewrite read_vector_back by auto. cbn [bind fst snd].
            destruct (Hidx (p, x) Hin) as [i Ei]. cbn [snd] in Ei. assert (Ex : ix x pool = i) by (unfold ix; now rewrite Ei).
            assert (Hi : i < length pool) by (apply nth_error_Some; rewrite (find_index_nth _ _ _ Ei); discriminate).
            rewrite Ex. rewrite (read_plain_back pad); [|reflexivity|unfold fits_int; lia]. cbn [bind fst snd].
            destruct (Z.ltb_spec (Z.of_nat i) 0); [lia|]. rewrite Nat2Z.id.
            assert (En : nth_error (seq (length hp0) (length pool)) i = Some (length hp0 + i)).
            { rewrite (nth_error_nth' _ 0) by now rewrite seq_length. now rewrite seq_nth. }
            rewrite En. cbn [get_or_ub bind].
            rewrite mset_app_max.
            + specialize (IH (hsa ++ [(p, x)])). rewrite map_app in IH. cbn [map fst snd] in IH. rewrite Ex in IH. apply IH. now rewrite <- app_assoc.
            + intros k Hk. rewrite map_map in Hk. cbn [fst] in Hk. clear - Hsort E Hk. rewrite E in Hsort. unfold msorted in Hsort. rewrite map_app in Hsort. cbn [map fst] in Hsort.
              clear E. induction hsa as [|[k0 v0] m IH]; cbn in *; [easy|]. inversion Hsort as [|? ? H1 H2]; subst. destruct Hk as [<-|Hk]; [|now apply IH].
              rewrite Forall_forall in H2. apply H2. apply in_or_app. right. now left. }
        specialize (Hrep hs [] eq_refl). cbn [map] in Hrep. unfold pm. rewrite Hrep. reflexivity.
      + assert (Hf : forall p, mfind p hs' = option_map (fun i => length hp0 + ix i pool) (mfind p hs)).
        { intro p. unfold hs'. clear. induction hs as [|[q i] hs IH]; [reflexivity|]. cbn. destruct (eqb p q); [reflexivity|exact IH]. }
        assert (Hix : forall p i, mfind p hs = Some i -> exists k, ix i pool = k /\ nth_error pool k = Some i).
        { intros p i E. apply mfind_In in E. destruct (Hidx (p, i) E) as [k Ek]. cbn in Ek. exists k. split; [unfold ix; now rewrite Ek|now apply find_index_nth]. }
        unfold same_lattice. cbn [l_m l_n l_d hamiltonians]. fold hs.
        split; [reflexivity|]. split; [reflexivity|]. split; [reflexivity|]. split; [|split].
        * intro p. rewrite Hf. destruct (mfind p hs); cbn; split; congruence.
        * intros p i j Ei Ej. rewrite Hf, Ei in Ej. cbn in Ej. injection Ej as <-. destruct (Hix p i Ei) as [k [-> Ek]].
          assert (Hi : In i pool) by (eapply nth_error_In; eauto). destruct (Hgood i Hi) as [Ht _].
          exists (nth i hp d), (stored (nth i hp d)). split; [exact Ht|]. split; [|apply stored_same].
          rewrite nth_error_app2 by lia. replace (length hp0 + k - length hp0) with k by lia. unfold new. now rewrite nth_error_map, Ek.
        * intros p q i i' j j' Ei Ei' Ej Ej'. rewrite Hf, Ei in Ej. rewrite Hf, Ei' in Ej'. cbn in Ej, Ej'. injection Ej as <-. injection Ej' as <-.
          split; intro E; [now subst|].
          destruct (Hix p i Ei) as [k [Ik Ek]], (Hix q i' Ei') as [k' [Ik' Ek']]. assert (k = k') by lia. congruence.
  Qed.
End Lattice.
