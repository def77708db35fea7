(** Tensors, spectra, tables of names and lattices survive being written and read. *)
From Coq Require Import List Bool Arith ZArith Lia.
From Verif Require Import Base.Outcome Base.SMap Model.Symmetry Model.Edge Model.Core Model.Names Model.Binary Spec.Binary Spec.Blocks.
From Verif Require Import Proof.SymmetryFacts Proof.LoopFacts Proof.CoreFacts Proof.ElemFacts Proof.BinaryFacts Proof.NamesFacts.
Import ListNotations.

(** ** strings and names *)
Lemma read_string_back : forall pad t, fits (length t) -> reads read_string (write_string pad t) t.
Proof.
  intros pad t H rest. unfold read_string, write_string. rewrite <- app_assoc, (read_count_back pad) by auto. cbn [bind fst snd].
  rewrite read_exact by now rewrite repeat_length, map_length. rewrite known_map_Some. cbn [get_or_ub bind]. rewrite map_map.
  do 2 f_equal. rewrite <- (map_id t) at 2. apply map_ext. intro. apply Nat2Z.id.
Qed.
#[global] Instance NameLaws_fast : NameLaws fast_name_io (fun l => fits (length l) /\ forall n, In n l -> (Z.of_nat n < 2 ^ 31)%Z).
Proof.
  split. intros pad l [Hl Hn] rest. cbn [read_names write_names fast_name_io].
  rewrite (read_vector_back pad 0%Z (map Z.of_nat l)).
  - cbn [bind fst snd]. rewrite (mapM_map_ok _ _ (fun n => n)).
    + cbn [bind]. now rewrite map_id.
    + intros n _. destruct (Z.ltb_spec (Z.of_nat n) 0); [lia|]. now rewrite Nat2Z.id.
  - now rewrite map_length.
  - intros z Hz. apply in_map_iff in Hz as [n [<- Hz]]. apply Hn in Hz. unfold fits_int. lia.
Qed.
#[global] Instance NameLaws_string : forall text_of name_of, (forall n, name_of (text_of n) = n) ->
  NameLaws (string_name_io text_of name_of) (fun l => fits (length l) /\ forall n, In n l -> fits (length (text_of n))).
Proof.
  intros text_of name_of Hinv. split. intros pad l [Hl Hn] rest. cbn [read_names write_names string_name_io].
  rewrite (read_list_back pad read_string (fun n => write_string pad (text_of n)) text_of l Hl).
  - cbn [bind fst snd]. rewrite map_map. do 2 f_equal. rewrite <- (map_id l) at 2. apply map_ext. apply Hinv.
  - intros n Hin. apply read_string_back. auto.
Qed.

Section Tensors.
  Context {S R : Type} {SS : Sym S} {SL : SymLaws S} {PS : Plain S} {RIO : ScalarIO R} {ok_scalar : R -> Prop} {RL : ScalarLaws R ok_scalar} {NIO : NameIO} {RR : Scalar R}.
  Context {ok_charge : S -> Prop} {PL : PlainLaws S ok_charge} {ok_names : list name -> Prop} {NL : NameLaws NIO ok_names}.
  Variables (pad : Z) (junk : R).
  Hypothesis plain_bose : @is_nosym S SS = true -> @is_fermi S SS = false.

  Lemma read_scalars_back : forall l, fits (length l) -> (forall x, In x l -> ok_scalar x) -> reads (read_scalars junk) (write_scalars pad l) l.
  Proof.
    intros l Hl Hx rest. unfold read_scalars, write_scalars. rewrite <- app_assoc, (read_count_back pad) by auto. cbn [bind].
    rewrite read_exact.
    - rewrite map_Some_concat, cut_pieces_concat by (intros; rewrite map_length; apply scalar_length).
      rewrite map_map. do 2 f_equal. rewrite <- (map_id l) at 2. apply map_ext_in. intros x Hin. rewrite known_map_Some. apply scalar_of_bytes. auto.
    - rewrite (concat_length_same _ width) by (intros; apply scalar_length). apply repeat_length.
  Qed.

  Definition stored_edge (e : edge S) : edge S := mkEdge (is_fermi && earrow e) (emap e).
  Definition stored (t : tensor S R) : tensor S R := mkTensor (t_names t) (mkCore (map stored_edge (t_edges t)) (t_blocks t)).
  Lemma stored_same : forall t, same_tensor t (stored t).
  Proof.
    intro t. split; [reflexivity|]. split; [|reflexivity]. unfold stored, t_edges at 2. cbn. induction (t_edges t) as [|e es IH]; constructor; auto.
    split; [reflexivity|]. cbn. now intros ->.
  Qed.

  Definition edge_bytes (e : edge S) : bytes :=
    if is_nosym then match emap e with sd :: _ => to_bytes pad (snd sd) | [] => [] end
    else (if is_fermi then to_bytes pad (earrow e) else []) ++ write_map pad (to_bytes pad) (to_bytes pad) (emap e).
  Lemma edge_back : forall e, storable_edge ok_charge e -> msorted (emap e) -> (is_nosym = true -> emap e <> []) ->
    write_edge pad e = Ok (edge_bytes e) /\ reads (read_edge pad) (edge_bytes e) (stored_edge e).
  Proof.
    intros [a m] [Hf Hm] Hs Hne. cbn [emap] in *. unfold write_edge, edge_bytes, reads, read_edge, stored_edge. cbn [emap earrow].
    destruct is_nosym eqn:N.
    - destruct m as [|[s d] m]; [now exfalso; apply Hne|]. split; [reflexivity|]. intro rest. cbn [snd].
      assert (E : (s, d) :: m = [(s, d)]) by (apply (nosym_map_one N _ s d Hs); now left). injection E as ->.
      unfold read_mapped_size. rewrite (read_plain_back pad); [|apply holding_length|apply (Hm s d); now left].
      cbn. now rewrite (nosym_unit N s), (plain_bose eq_refl).
    - split; [reflexivity|]. intro rest.
      assert (Hmap : reads (read_map (read_plain (holding pad szero)) (read_mapped_size pad)) (write_map pad (to_bytes pad) (to_bytes pad) m) m).
      { apply read_map_back; auto. intros k v Hkv. destruct (Hm k v Hkv) as [H1 H2]. split.
        - apply read_plain_back; auto using holding_length.
        - apply (read_plain_back pad); auto using holding_length. }
      destruct is_fermi.
      + rewrite <- app_assoc, (read_plain_back pad); [|apply holding_length|exact I]. cbn [bind fst snd]. rewrite Hmap. reflexivity.
      + cbn [app bind fst snd]. rewrite Hmap. reflexivity.
  Qed.

  Definition data_bytes (blocks : list (list S * list R)) : bytes :=
    if is_nosym then match blocks with kb :: _ => write_scalars pad (snd kb) | [] => [] end
    else write_map pad (write_vector pad) (write_scalars pad) blocks.
  Lemma plain_one_block : forall t : tensor S R, wf_tensor t -> has_dimensions t -> is_nosym = true -> exists b, t_blocks t = [(repeat szero (length (t_names t)), b)].
  Proof.
    intros t W Hd N. destruct (wf_tcore t W) as [Hs Hb _].
    assert (Hc : exists key n, choice (maps_of (t_edges t)) key n /\ length key = length (t_edges t)).
    { specialize (Hd N). clear - Hd. induction (t_edges t) as [|e es IH].
      - exists [], 1. split; [constructor|reflexivity].
      - destruct IH as [key [n [H1 H2]]]; [intros; apply Hd; now right|].
        destruct (emap e) as [|[s d] m] eqn:E; [exfalso; apply (Hd e); [now left|exact E]|].
        exists (s :: key), (d * n). split; [|cbn; congruence]. cbn [maps_of map]. constructor; auto. rewrite E. now left. }
    destruct Hc as [key [n [Hc Hlen]]].
    assert (Hin : In (key, n) (block_list (maps_of (t_edges t)))) by (apply in_block_list; split; [exact Hc|apply (nosym_unit N)]).
    unfold t_edges in Hin. rewrite <- Hb in Hin. unfold shape in Hin. apply in_map_iff in Hin as [[k b] [E Hkb]]. injection E as -> <-.
    assert (Hf : mfind key (c_blocks (t_core t)) = Some b).
    { apply In_mfind; auto. unfold msorted. rewrite <- shape_keys, Hb. exact (block_list_sorted _ Hs). }
    exists b. unfold t_blocks. rewrite (nosym_blocks_one N _ _ _ (wf_tcore t W) Hf). do 2 f_equal.
    apply (nosym_keys_eq N). rewrite repeat_length, (wf_rank t W). exact Hlen.
  Qed.
  Lemma data_back : forall t, wf_tensor t -> has_dimensions t -> storable ok_charge ok_scalar ok_names t ->
    write_data pad (t_blocks t) = Ok (data_bytes (t_blocks t)) /\ reads (read_data pad junk (length (t_names t))) (data_bytes (t_blocks t)) (t_blocks t).
  Proof.
    intros t W Hd St. unfold write_data, data_bytes, reads, read_data. destruct is_nosym eqn:N.
    - destruct (plain_one_block t W Hd N) as [b E]. pose proof (st_blocks _ _ _ _ St) as Hb. rewrite E in *. split; [reflexivity|]. intro rest. cbn [snd].
      destruct (Hb _ _ (or_introl eq_refl)) as [_ [_ [Hb1 Hb2]]]. rewrite read_scalars_back; auto.
    - split; [reflexivity|]. intro rest. apply read_map_back; [apply (st_count _ _ _ _ St)| |].
      + destruct (wf_tcore t W) as [Hs Hb _]. unfold msorted, t_blocks. rewrite <- shape_keys, Hb. exact (block_list_sorted _ Hs).
      + intros k b Hkb. destruct (st_blocks _ _ _ _ St k b Hkb) as [H1 [H2 [H3 H4]]]. split; [apply read_vector_back; auto|now apply read_scalars_back].
  Qed.

  Definition tensor_bytes (t : tensor S R) : bytes :=
    write_names pad (t_names t) ++ (write_count pad (length (t_edges t)) ++ concat (map edge_bytes (t_edges t))) ++ data_bytes (t_blocks t).
  Lemma check_valid_ok : forall (names : list name) r, NoDup names -> length names = r -> check_valid_name names r = Ok tt.
  Proof.
    intros names r Hn <-. unfold check_valid_name. rewrite Nat.eqb_refl. cbn [negb]. replace (has_dup names) with false; [reflexivity|].
    symmetry. induction Hn as [|n l Hin Hn IH]; [reflexivity|]. cbn [has_dup]. rewrite IH, orb_false_r.
    destruct (existsb (Nat.eqb n) l) eqn:E; [|reflexivity]. apply existsb_exists in E as [m [Hm E]]. apply Nat.eqb_eq in E. now subst.
  Qed.
  Lemma edges_sorted : forall t : tensor S R, wf_tensor t -> forall e, In e (t_edges t) -> msorted (emap e).
  Proof.
    intros t W e He. destruct (wf_tcore t W) as [Hs _ _]. unfold sorted_maps in Hs. rewrite Forall_forall in Hs. apply Hs. unfold maps_of. now apply in_map.
  Qed.
  Theorem tensor_round_trip : forall t, wf_tensor t -> has_dimensions t -> storable ok_charge ok_scalar ok_names t ->
    dump_tensor pad t = Ok (tensor_bytes t) /\ reads (load_tensor pad junk) (tensor_bytes t) (stored t).
  Proof.
    intros t W Hd St.
    assert (He : forall e, In e (t_edges t) -> write_edge pad e = Ok (edge_bytes e) /\ reads (read_edge pad) (edge_bytes e) (stored_edge e)).
    { intros e Hin. apply edge_back; [now apply (st_edges _ _ _ _ St)|eapply edges_sorted; eauto|]. intro N. now apply (Hd N). }
    destruct (data_back t W Hd St) as [Hw Hr]. split.
    - unfold dump_tensor, write_list. rewrite (mapM_ok _ edge_bytes).
      + cbn [bind]. rewrite Hw. reflexivity.
      + intros e Hin. now apply He.
    - intro rest. unfold load_tensor, tensor_bytes. rewrite <- !app_assoc. rewrite names_read_back by apply (st_names _ _ _ _ St). cbn [bind fst snd].
      pose proof (read_list_back pad (read_edge pad) edge_bytes stored_edge (t_edges t) (st_rank _ _ _ _ St) (fun e H => proj2 (He e H))) as Hl.
      specialize (Hl (data_bytes (t_blocks t) ++ rest)). rewrite <- app_assoc in Hl. rewrite Hl. cbn [bind fst snd].
      rewrite check_valid_ok; [|apply (wf_nodup t W)|rewrite map_length; apply (wf_rank t W)]. cbn [bind].
      rewrite Hr. reflexivity.
  Qed.

  (** any number of tensors, one after the other *)
  Fixpoint dump_all (ts : list (tensor S R)) : res bytes :=
    match ts with [] => Ok [] | t :: ts => bind (dump_tensor pad t) (fun b => bind (dump_all ts) (fun bs => Ok (b ++ bs))) end.
  Fixpoint load_many (n : nat) (s : stream) : res (list (tensor S R) * stream) :=
    match n with O => Ok ([], s) | Datatypes.S n => bind (load_tensor pad junk s) (fun ts => bind (load_many n (snd ts)) (fun r => Ok (fst ts :: fst r, snd r))) end.
  Theorem tensors_round_trip : forall ts, (forall t, In t ts -> wf_tensor t /\ has_dimensions t /\ storable ok_charge ok_scalar ok_names t) ->
    exists b, dump_all ts = Ok b /\ reads (load_many (length ts)) b (map stored ts).
  Proof.
    induction ts as [|t ts IH]; intros H.
    - exists []. split; [reflexivity|]. intro rest. reflexivity.
    - destruct IH as [b [E1 E2]]; [intros; apply H; now right|]. destruct (H t (or_introl eq_refl)) as [W [Hd St]].
      destruct (tensor_round_trip t W Hd St) as [F1 F2]. exists (tensor_bytes t ++ b). split; [cbn; now rewrite F1, E1|].
      intro rest. cbn [length load_many]. rewrite <- app_assoc, F2. cbn [bind fst snd]. rewrite E2. reflexivity.
  Qed.

  (** spectra *)
  Theorem singular_round_trip : forall value : list (S * list R), msorted value -> fits (length value) ->
    (forall s l, In (s, l) value -> ok_charge s /\ fits (length l) /\ forall x, In x l -> ok_scalar x) -> (is_nosym = true -> value <> []) ->
    exists b, dump_singular pad value = Ok b /\ reads (load_singular pad junk) b value.
  Proof.
    clear plain_bose. intros value Hs Hf Hv Hne. unfold dump_singular, load_singular, reads. destruct is_nosym eqn:N.
    - destruct value as [|[s l] value]; [now exfalso; apply Hne|].
      assert (E : value = []).
      { destruct value as [|[s' l'] v]; [reflexivity|]. exfalso. apply msorted_cons_inv in Hs as [_ Hs]. specialize (Hs s' (or_introl eq_refl)).
        rewrite (nosym_unit N s), (nosym_unit N s') in Hs. now apply lt_irrefl in Hs. }
      subst value. eexists. split; [reflexivity|]. intro rest. cbn [snd]. destruct (Hv _ _ (or_introl eq_refl)) as [_ [Hv1 Hv2]]. rewrite read_scalars_back by auto. cbn. now rewrite (nosym_unit N s).
    - eexists. split; [reflexivity|]. intro rest. apply read_map_back; auto. intros k v Hkv. destruct (Hv k v Hkv) as [H1 [H2 H3]]. split.
      + apply read_plain_back; auto using holding_length.
      + now apply read_scalars_back.
  Qed.
End Tensors.

(** the table of names *)
Theorem table_round_trip : forall pad ds, fits (length (id_to_name ds)) -> (forall t, In t (id_to_name ds) -> fits (length t)) ->
  reads read_table (write_table pad ds) (load_table (dump_table ds)).
Proof.
  intros pad ds H1 H2 rest. unfold read_table, write_table, dump_table.
  rewrite (read_list_back pad read_string (write_string pad) (fun t => t)); [|exact H1|intros; apply read_string_back; auto].
  cbn [bind fst snd]. now rewrite map_id.
Qed.
