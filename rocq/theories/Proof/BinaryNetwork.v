(** Lattices of tensors survive being written and read. *)
From Coq Require Import List Bool Arith ZArith Lia.
From Verif Require Import Base.Outcome Base.SMap Model.Symmetry Model.Edge Model.Core Model.EdgeOperator Model.Contract Model.Qr Model.Svd Model.Names Model.Auxiliaries Model.Binary Model.BinaryNetwork Model.Spins
  Spec.Blocks Spec.Contract Spec.Plain Spec.Grid Spec.SquareLattice Spec.SpinLattice Spec.Lapack Spec.Factor Spec.Truncate Spec.Spectrum Spec.Svd Spec.Binary Spec.NetworkFile.
From Verif Require Import Proof.SymmetryFacts Proof.LoopFacts Proof.CoreFacts Proof.ElemFacts Proof.BinaryFacts Proof.BinaryTensor Proof.BinaryLattice Proof.SpinFacts Proof.SpinHistory.
From Verif Require Model.Schedule Proof.SimpleUpdateFacts.
Import ListNotations.
#[local] Existing Instance SimpleUpdateFacts.OrdLaws_direction.

#[global] Instance PlainLaws_bond : PlainLaws Schedule.bond (fun k => fits_int (fst (snd k)) /\ fits_int (snd (snd k))).
Proof.
  split; [reflexivity|]. intros pad [k [x y]] [Hx Hy]. cbn [fst snd] in *.
  assert (H : signed 4 (little 4 x) = x) by (apply signed_little; [lia|exact Hx]). assert (H' : signed 4 (little 4 y) = y) by (apply signed_little; [lia|exact Hy]).
  cbn [from_bytes to_bytes Plain_bond fst snd].
  destruct k.
  - change (nth 8 (little 4 y ++ little 4 x ++ [68%Z; pad; pad; pad]) 0%Z) with 68%Z.
    change (firstn 4 (little 4 y ++ little 4 x ++ [68%Z; pad; pad; pad])) with (little 4 y).
    change (firstn 4 (skipn 4 (little 4 y ++ little 4 x ++ [68%Z; pad; pad; pad]))) with (little 4 x). now rewrite H, H'.
  - change (nth 8 (little 4 y ++ little 4 x ++ [82%Z; pad; pad; pad]) 0%Z) with 82%Z.
    change (firstn 4 (little 4 y ++ little 4 x ++ [82%Z; pad; pad; pad])) with (little 4 y).
    change (firstn 4 (skipn 4 (little 4 y ++ little 4 x ++ [82%Z; pad; pad; pad]))) with (little 4 x). now rewrite H, H'.
Qed.

Section Network.
  Context {R V : Type} {RR : Scalar R} {RIO : ScalarIO R} {VIO : ScalarIO V} {NIO : NameIO} {ok_scalar : R -> Prop} {RL : ScalarLaws R ok_scalar}
    {ok_value : V -> Prop} {VL : ScalarLaws V ok_value} {ok_names : list name -> Prop} {NL : NameLaws NIO ok_names}.
  Notation tens := (tensor unit R).
  Variables (pad : Z) (junk : R) (vjunk : V).
  Let bose : @is_nosym unit _ = true -> @is_fermi unit _ = false := fun _ => eq_refl.
  Definition good (t : tens) : Prop := good_tensor (ok_charge := fun _ => True) (ok_scalar := ok_scalar) (ok_names := ok_names) t.

  Lemma row_back : forall row, fits (length row) -> (forall t, In t row -> good t) ->
    exists b, write_list pad (dump_tensor pad) row = Ok b /\ reads (read_list (load_tensor pad junk)) b (map stored row).
  Proof.
    intros row Hl G. exists (write_count pad (length row) ++ concat (map (tensor_bytes pad) row)). split.
    - unfold write_list. rewrite (mapM_ok _ (tensor_bytes pad)); [reflexivity|]. intros t Ht. destruct (G t Ht) as [W [D St]]. exact (proj1 (tensor_round_trip pad junk bose _ W D St)).
    - apply read_list_back; [exact Hl|]. intros t Ht. destruct (G t Ht) as [W [D St]]. exact (proj2 (tensor_round_trip pad junk bose _ W D St)).
  Qed.
  Lemma list_back : forall (A B : Type) (w : A -> res bytes) (rd : reader B) (g : A -> B) l, fits (length l) -> (forall a, In a l -> exists b, w a = Ok b /\ reads rd b (g a)) ->
    exists b, write_list pad w l = Ok b /\ reads (read_list rd) b (map g l).
  Proof.
    intros A B w rd g l Hl H. set (wb := fun a => match w a with Ok b => b | _ => [] end).
    assert (H' : forall a, In a l -> w a = Ok (wb a) /\ reads rd (wb a) (g a)).
    { intros a Ha. destruct (H a Ha) as [b [E1 E2]]. unfold wb. rewrite E1. auto. }
    exists (write_count pad (length l) ++ concat (map wb l)). split.
    - unfold write_list. rewrite (mapM_ok _ wb); [reflexivity|]. intros a Ha. exact (proj1 (H' a Ha)).
    - apply read_list_back; [exact Hl|]. intros a Ha. exact (proj2 (H' a Ha)).
  Qed.
  Lemma same_rows : forall rows : list (list tens), Forall2 (Forall2 same_tensor) rows (map (map stored) rows).
  Proof. induction rows as [|row rows IH]; [constructor|]. cbn. constructor; [|exact IH]. induction row as [|t row IH']; [constructor|]. cbn. constructor; [apply stored_same|exact IH']. Qed.

  Theorem network_written : forall hp (x : @network_file R), storable_network good hp x ->
    exists b, dump_network pad hp x = Ok b /\
    forall hp0 x0, exists new x', reads (load_network pad junk hp0 x0) b (hp0 ++ new, x') /\ same_network hp (hp0 ++ new) x x' /\ nf_sites x' = map (map stored) (nf_sites x).
  Proof.
    intros hp x [Sb Sv Sr Sl Ss]. destruct (lattice_round_trip pad junk bose hp (nf_base x) Sb) as [b1 [E1 H1]].
    destruct (list_back _ _ (write_list pad (dump_tensor pad)) (read_list (load_tensor pad junk)) (map stored) (nf_sites x) Sr) as [b2 [E2 H2]].
    { intros row Hrow. apply row_back; [now apply Sl|]. intros t Ht. exact (Ss row t Hrow Ht). }
    exists (b1 ++ to_bytes pad (nf_virtual x) ++ b2). split.
    - unfold dump_network. rewrite E1. cbn [bind]. rewrite E2. reflexivity.
    - intros hp0 x0. destruct (H1 hp0 (nf_base x0)) as [new [l' [R1 S1]]]. exists new, (mkNetworkFile l' (nf_virtual x) (map (map stored) (nf_sites x))). split; [|split; [|reflexivity]].
      + intro rest. unfold load_network. rewrite <- !app_assoc. rewrite R1. cbn [bind fst snd].
        rewrite (read_plain_back pad); [|apply holding_length|exact Sv]. cbn [bind fst snd]. rewrite H2. reflexivity.
      + split; [exact S1|]. split; [reflexivity|]. cbn [nf_sites]. apply same_rows.
  Qed.
  Theorem network_file_back : forall hp (x : @network_file R), storable_network good hp x ->
    exists b, dump_network pad hp x = Ok b /\
    forall hp0 x0, exists new x', reads (load_network pad junk hp0 x0) b (hp0 ++ new, x') /\ same_network hp (hp0 ++ new) x x'.
  Proof.
    intros hp x H. destruct (network_written hp x H) as [b [E G]]. exists b. split; [exact E|]. intros hp0 x0. destruct (G hp0 x0) as [new [x' [G1 [G2 _]]]]. eauto.
  Qed.

  Theorem simple_file_back : forall hp (x : @simple_file R V), storable_simple good ok_value hp x ->
    exists b, dump_simple pad hp x = Ok b /\
    forall hp0 x0, exists new x', reads (load_simple pad junk vjunk hp0 x0) b (hp0 ++ new, x') /\ same_network hp (hp0 ++ new) (sf_network x) (sf_network x') /\ sf_environment x' = sf_environment x.
  Proof.
    intros hp x [Sn So Sc Se]. destruct (network_written hp (sf_network x) Sn) as [b1 [E1 H1]].
    set (wv := fun v : list (unit * list V) => match dump_singular pad v with Ok b => b | _ => [] end).
    assert (Hv : forall k v, In (k, v) (sf_environment x) -> dump_singular pad v = Ok (wv v) /\ reads (load_singular pad vjunk) (wv v) v).
    { intros k v Hkv. destruct (Se k v Hkv) as [_ [_ [l [-> [Hl Hg]]]]].
      destruct (singular_round_trip (ok_charge := fun _ => True) (ok_scalar := ok_value) pad vjunk [(tt, l)]) as [b [Eb Hb]].
      - repeat constructor.
      - unfold fits. cbn. lia.
      - intros s l' [Hin|[]]. injection Hin as <- <-. split; [exact I|]. split; [exact Hl|exact Hg].
      - discriminate.
      - unfold wv. rewrite Eb. split; [reflexivity|exact Hb]. }
    exists (b1 ++ write_count pad (length (sf_environment x)) ++ concat (map (fun kv => to_bytes pad (fst kv) ++ wv (snd kv)) (sf_environment x))). split.
    - unfold dump_simple. rewrite E1. cbn [bind]. rewrite (mapM_ok _ (fun kv => to_bytes pad (fst kv) ++ wv (snd kv))); [reflexivity|].
      intros [k v] Hkv. cbn [fst snd]. destruct (Hv k v Hkv) as [-> _]. reflexivity.
    - intros hp0 x0. destruct (H1 hp0 (sf_network x0)) as [new [y [R1 [S1 _]]]]. exists new, (mkSimpleFile y (sf_environment x)). split; [|split; [exact S1|reflexivity]].
      intro rest. unfold load_simple. rewrite <- !app_assoc. rewrite R1. cbn [bind fst snd].
      rewrite (read_count_back pad) by (unfold fits; lia). cbn [bind fst snd].
      rewrite (read_entries_back (read_plain (repeat (Some 0%Z) 12)) (fun _ => load_singular pad vjunk) (to_bytes pad) wv (sf_environment x)); [reflexivity| |exact So].
      intros k v Hkv. split; [|exact (proj2 (Hv k v Hkv))]. destruct (Se k v Hkv) as [F1 [F2 _]]. apply read_plain_back; [reflexivity|]. split; assumption.
  Qed.

  Theorem exact_file_back : forall hp (x : @exact_file R), storable_lattice good hp (xf_base x) -> good (xf_vector x) ->
    exists b, dump_exact pad hp x = Ok b /\
    forall hp0 x0, exists new x', reads (load_exact pad junk hp0 x0) b (hp0 ++ new, x') /\ same_lattice hp (hp0 ++ new) (xf_base x) (xf_base x') /\ same_tensor (xf_vector x) (xf_vector x').
  Proof.
    intros hp x Sb [W [D St]]. destruct (lattice_round_trip pad junk bose hp (xf_base x) Sb) as [b1 [E1 H1]].
    destruct (tensor_round_trip pad junk bose _ W D St) as [E2 H2]. exists (b1 ++ tensor_bytes pad (xf_vector x)). split.
    - unfold dump_exact. rewrite E1. cbn [bind]. rewrite E2. reflexivity.
    - intros hp0 x0. destruct (H1 hp0 (xf_base x0)) as [new [l' [R1 S1]]]. exists new, (mkExactFile l' (stored (xf_vector x))). split; [|split; [exact S1|apply stored_same]].
      intro rest. unfold load_exact. rewrite <- app_assoc. rewrite R1. cbn [bind fst snd]. rewrite H2. reflexivity.
  Qed.

  (** ** equal tensors have equal elements *)
  Lemma stored_maps : forall es : list (edge unit), map emap (map stored_edge es) = map emap es.
  Proof. intro es. rewrite map_map. now apply map_ext. Qed.
  Lemma stored_wf : forall t : tens, wf_tensor t -> wf_tensor (stored t).
  Proof.
    intros t [[Wm Ws Wp] Wn Wr]. split; [split|exact Wn|].
    - cbn [t_core stored c_edges]. unfold maps_of. rewrite stored_maps. exact Wm.
    - cbn [t_core stored c_edges c_blocks]. unfold maps_of. rewrite stored_maps. exact Ws.
    - cbn [t_core stored c_edges c_blocks]. intros i e s He Hs. rewrite nth_error_map in He. destruct (nth_error (t_edges t) i) as [e0|] eqn:E0; [|discriminate]. injection He as <-. exact (Wp i e0 s E0 Hs).
    - cbn [t_edges t_core stored c_edges t_names]. rewrite map_length. exact Wr.
  Qed.
  Lemma stored_dimension : forall (t : tens) n, dimension (stored t) n = dimension t n.
  Proof.
    intros t n. unfold dimension, legs_of. cbn [t_names t_edges t_core stored c_edges].
    generalize (t_edges t). induction (t_names t) as [|k names IH]; intros es; [reflexivity|]. destruct es as [|e es]; [reflexivity|]. cbn [map combine mfind].
    destruct (eqb n k); [reflexivity|apply IH].
  Qed.
  Lemma stored_const_at : forall (t : tens) pos, const_at (stored t) pos = const_at t pos.
  Proof.
    intros t pos. unfold const_at, get_block_and_offset. cbn [t_names t_core stored c_edges].
    match goal with |- bind (bind ?a _) _ = bind (bind ?b _) _ => assert (E : a = b) end.
    { unfold t_edges. generalize (c_edges (t_core t)). induction (t_names t) as [|k names IH]; intros es; [reflexivity|]. destruct es as [|e es]; [reflexivity|].
      cbn [map combine mapM fst snd]. rewrite IH. reflexivity. }
    rewrite E. reflexivity.
  Qed.
  Lemma stored_value : forall (t : tens) at_, value (stored t) at_ = value t at_.
  Proof. intros t at_. unfold value, element. cbn [t_names stored]. now rewrite stored_const_at. Qed.
  Lemma stored_fits : forall m n dim d i j (t : tens), fits_spin m n dim d i j t -> fits_spin m n dim d i j (stored t).
  Proof. intros m n dim d i j t [W B P U D L Rg O]. split; rewrite ?stored_dimension; auto. now apply stored_wf. Qed.

  (** ** configurations of spins *)
  Hypothesis EA : exact_arithmetic R.
  Variables (E : @env R) (J : internal).
  Hypothesis HJ : NoDup [i_contract_0 J; i_contract_1 J; i_contract_2 J].
  Lemma initialized_partly : forall M N d dim T sp, (forall i j, i < M -> j < N -> fits_spin M N dim d i j (T i j)) -> (forall i j, i < M -> j < N -> (-1 <= sp i j < Z.of_nat d)%Z) ->
    exists c, initialize_spin E J M N (lattice_of M N T) (cell (table M N sp)) (fresh M N) = Ok c /\ s_spin c = table M N sp /\
      ((forall i j, i < M -> j < N -> sp i j <> (-1)%Z) -> configured E J M N dim d T c sp).
  Proof.
    intros M N d dim T sp F Hs. destruct (fresh_state M N d dim (lattice_of M N T) T eq_refl F) as [S0 K0].
    destruct (initialize_ok M N d dim EA E J HJ sp (flat_map (fun i => map (pair i) (seq 0 N)) (seq 0 M)) _ _ _ _ S0 K0) as [c [sp' [cu' [E1 [S1 [_ H1]]]]]].
    { intros i j Hij. apply in_all_sites in Hij as [Hi Hj]. auto. }
    cbn [fst snd] in E1.
    assert (E2 : initialize_spin E J M N (lattice_of M N T) (cell (table M N sp)) (fresh M N) = Ok c).
    { unfold initialize_spin. rewrite <- E1. apply foldM_ext. intros a [i j] Hij. apply in_all_sites in Hij as [Hi Hj]. cbn [fst snd]. now rewrite cell_table. }
    exists c. split; [exact E2|]. split.
    - pose proof (st_spin _ _ _ _ _ _ _ _ S1) as Hsp. cbn [snd] in Hsp. rewrite Hsp. apply table_ext. intros i j Hi Hj. apply H1. now apply in_all_sites.
    - intro Hset. destruct (initialized EA E J HJ M N 1 d dim (le_n 1) T sp F) as [c' [E3 C]].
      { intros i j Hi Hj. specialize (Hs i j Hi Hj). specialize (Hset i j Hi Hj). lia. }
      replace c with c'; [exact C|]. unfold initialize_spin in E3. rewrite E1 in E3. congruence.
  Qed.

  Theorem sampling_file_back : forall hp (x : @sampling_file R) M N d dim T sp,
    storable_network good hp (gf_network x) -> fits (gf_cut x) -> l_m (nf_base (gf_network x)) = Z.of_nat M -> l_n (nf_base (gf_network x)) = Z.of_nat N ->
    nf_sites (gf_network x) = lattice_of M N T -> (forall i j, i < M -> j < N -> fits_spin M N dim d i j (T i j)) ->
    s_spin (gf_spins x) = map (fun i => map (sp i) (seq 0 N)) (seq 0 M) -> (forall i j, i < M -> j < N -> (-1 <= sp i j < Z.of_nat d)%Z /\ fits_int (sp i j)) ->
    exists b, dump_sampling pad hp x = Ok b /\
    forall hp0 x0, exists new x' T', reads (load_sampling pad junk E J hp0 x0) b (hp0 ++ new, x') /\ same_network hp (hp0 ++ new) (gf_network x) (gf_network x') /\
      gf_cut x' = gf_cut x /\ s_spin (gf_spins x') = s_spin (gf_spins x) /\
      nf_sites (gf_network x') = lattice_of M N T' /\ (forall i j, i < M -> j < N -> same_tensor (T i j) (T' i j)) /\
      ((forall i j, i < M -> j < N -> sp i j <> (-1)%Z) -> configured E J M N dim d T' (gf_spins x') sp /\ psi M N dim T' sp = psi M N dim T sp).
  Proof.
    intros hp x M N d dim T sp Sn Sc Em En Es F Ep Hs. destruct (network_written hp _ Sn) as [b1 [E1 H1]].
    assert (HM : (Z.of_nat M < 2 ^ 31)%Z) by (destruct Sn as [[Hm _ _ _ _ _] _ _ _ _]; unfold fits_int in Hm; lia).
    assert (HN : (Z.of_nat N < 2 ^ 31)%Z) by (destruct Sn as [[_ Hn _ _ _ _] _ _ _ _]; unfold fits_int in Hn; lia).
    destruct (list_back _ _ (fun row => Ok (write_vector pad row)) (read_vector pad 0%Z) (fun row => row) (s_spin (gf_spins x))) as [b2 [E2 H2]].
    { rewrite Ep, map_length, seq_length. unfold fits. lia. }
    { intros row Hrow. exists (write_vector pad row). split; [reflexivity|]. rewrite Ep in Hrow. apply in_map_iff in Hrow as [i [<- Hi]]. apply in_seq in Hi.
      apply read_vector_back; [rewrite map_length, seq_length; unfold fits; lia|]. intros a Ha. apply in_map_iff in Ha as [j [<- Hj]]. apply in_seq in Hj. apply Hs; lia. }
    rewrite map_id in H2.
    set (T' := fun i j => stored (T i j)).
    assert (F' : forall i j, i < M -> j < N -> fits_spin M N dim d i j (T' i j)) by (intros i j Hi Hj; apply stored_fits; auto).
    assert (El : map (map stored) (lattice_of M N T) = lattice_of M N T').
    { unfold lattice_of. rewrite map_map. apply map_ext. intro i. rewrite map_map. reflexivity. }
    destruct (initialized_partly M N d dim T' sp F') as [c [E3 [S3 C3]]]; [intros i j Hi Hj; exact (proj1 (Hs i j Hi Hj))|].
    exists (b1 ++ to_bytes pad (gf_cut x) ++ b2). split.
    - unfold dump_sampling. rewrite E1. cbn [bind]. rewrite E2. reflexivity.
    - intros hp0 x0. destruct (H1 hp0 (gf_network x0)) as [new [y [R1 [S1 L1]]]].
      set (c' := match s_spin (gf_spins x) with [] => fresh M N | _ => c end).
      assert (E4 : (match s_spin (gf_spins x) with [] => Ok (fresh M N) | _ => initialize_spin E J M N (nf_sites y) (cell (s_spin (gf_spins x))) (fresh M N) end) = Ok c').
      { unfold c'. rewrite L1, Es, El, Ep. fold (table M N sp). destruct (table M N sp) as [|r0 rs] eqn:Et; [reflexivity|]. exact E3. }
      assert (Ec : c' = c).
      { unfold c'. rewrite Ep. fold (table M N sp). destruct (table M N sp) as [|r0 rs] eqn:Et; [|reflexivity]. destruct M as [|M']; [|discriminate]. cbn in E3. congruence. }
      exists new, (mkSamplingFile y (gf_cut x) c'), T'. split; [|split; [exact S1|]].
      + intro rest. unfold load_sampling. rewrite <- !app_assoc. rewrite R1. cbn [bind fst snd].
        rewrite (read_plain_back pad); [|apply holding_length|exact Sc]. cbn [bind fst snd]. rewrite H2. cbn [bind fst snd].
        destruct S1 as [[Sm [Sn' _]] _]. rewrite <- Sm, <- Sn', Em, En, !Nat2Z.id. rewrite E4. reflexivity.
      + cbn [gf_cut gf_spins gf_network]. rewrite Ec. split; [reflexivity|]. split; [rewrite S3, Ep; reflexivity|]. split; [rewrite L1, Es; exact El|]. split; [intros; apply stored_same|].
        intro Hset. split; [exact (C3 Hset)|]. unfold psi. apply (network_ext_range M N dim EA). intros i j u v l r _ _ _. unfold spin_elements, T'. apply stored_value.
  Qed.
End Network.

(** ** the amplitude of a lattice read from a file *)
Theorem sampling_file_amplitude : forall (R V : Type) (RR : Scalar R) (RIO : ScalarIO R) (NIO : NameIO) (ok_scalar : R -> Prop), ScalarLaws R ok_scalar ->
  forall ok_names : list name -> Prop, NameLaws NIO ok_names -> forall (pad : Z) (junk : R), exact_arithmetic R -> associative_product R -> distributive_product R ->
  forall (E : @env R) (J : internal) (Iq : qr_names) (Is : svd_names) (L : qr_lapack R) (gesvd : nat -> nat -> list R -> bool * (list V * list R * list R))
    (vzero vjunk : V) (greater : V -> V -> bool) (of_real : V -> R),
  NoDup [i_contract_0 J; i_contract_1 J; i_contract_2 J] -> own_names Iq Is -> qr_sound L -> svd_sound of_real vzero greater gesvd -> strict_order greater ->
  forall hp (x : @sampling_file R) M N d dim T sp, 0 < M -> 0 < N -> 0 < gf_cut x ->
    storable_network (good (ok_scalar := ok_scalar) (ok_names := ok_names)) hp (gf_network x) -> fits (gf_cut x) -> l_m (nf_base (gf_network x)) = Z.of_nat M -> l_n (nf_base (gf_network x)) = Z.of_nat N ->
    nf_sites (gf_network x) = lattice_of M N T -> (forall i j, i < M -> j < N -> fits_spin M N dim d i j (T i j)) ->
    s_spin (gf_spins x) = map (fun i => map (sp i) (seq 0 N)) (seq 0 M) -> (forall i j, i < M -> j < N -> (0 <= sp i j < Z.of_nat d)%Z /\ fits_int (sp i j)) ->
    rows_within M N dim (gf_cut x) ->
    exists b, dump_sampling pad hp x = Ok b /\
    forall hp0 x0, exists hp' x', reads (load_sampling pad junk E J hp0 x0) b (hp', x') /\
      unless_reported L gesvd (fun v => v = psi M N dim T sp)
        (spin_amplitude E J Iq Is L gesvd vzero vjunk greater of_real (Z.to_nat (l_m (nf_base (gf_network x')))) (Z.to_nat (l_n (nf_base (gf_network x')))) (gf_cut x') (gf_spins x')).
Proof.
  intros R V RR RIO NIO ok_scalar RL ok_names NL pad junk EA MA MD E J Iq Is L gesvd vzero vjunk greater of_real HJ HN HL HS HO hp x M N d dim T sp HM HP Hc Sn Sc Em En Es F Ep Hs Hr.
  destruct (sampling_file_back pad junk EA E J HJ hp x M N d dim T sp Sn Sc Em En Es F Ep) as [b [E1 H1]].
  { intros i j Hi Hj. destruct (Hs i j Hi Hj). split; [lia|assumption]. }
  exists b. split; [exact E1|]. intros hp0 x0. destruct (H1 hp0 x0) as [new [x' [T' [R1 [[Sl _] [C1 [_ [_ [_ H2]]]]]]]]]. exists (hp0 ++ new), x'. split; [exact R1|].
  destruct H2 as [Cf Ps]; [intros i j Hi Hj; destruct (Hs i j Hi Hj); lia|]. destruct Sl as [<- [<- _]]. rewrite Em, En, !Nat2Z.id, C1, <- Ps.
  now apply (amplitude_configured EA MA MD E J Iq Is L gesvd vzero vjunk greater of_real HJ HN HL HS HO M N (gf_cut x) d dim Hc).
Qed.
