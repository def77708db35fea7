(** The six kinds of charges, sequences, truncation, tables of names. *)
From Coq Require Import List Bool Arith ZArith Lia.
From Verif Require Import Base.Outcome Base.SMap Model.Symmetry Model.Edge Model.Core Model.Names Model.Binary Spec.Binary.
From Verif Require Import Proof.SymmetryFacts Proof.LoopFacts Proof.CoreFacts Proof.ElemFacts Proof.BinaryFacts Proof.BinaryTensor Proof.BinaryLattice Proof.NamesFacts Proof.ScalarZ Proof.ExTensors Proof.ExBinary.
Import ListNotations.

Section Generic.
  Context {S : Type} {SS : Sym S} {SL : SymLaws S} {PS : Plain S} {ok : S -> Prop} {PL : PlainLaws S ok}.
  Hypothesis plain_bose : @is_nosym S SS = true -> @is_fermi S SS = false.
  Lemma round_trip_kind : forall (R : Type) (RIO : ScalarIO R) (ok_scalar : R -> Prop), ScalarLaws R ok_scalar ->
    forall (NIO : NameIO) (ok_names : list name -> Prop), NameLaws NIO ok_names ->
    forall (pad : Z) (junk : R) (t : tensor S R), wf_tensor t -> has_dimensions t -> storable ok ok_scalar ok_names t ->
    exists b t', dump_tensor pad t = Ok b /\ reads (load_tensor pad junk) b t' /\ same_tensor t t'.
  Proof.
    intros R RIO ok_scalar RL NIO ok_names NL pad junk t W Hd St. exists (tensor_bytes pad t), (stored t).
    destruct (tensor_round_trip pad junk plain_bose t W Hd St) as [H1 H2]. split; [exact H1|]. split; [exact H2|apply stored_same].
  Qed.
End Generic.
Definition round_trip_plain := @round_trip_kind unit _ _ _ (fun _ => True) _ (fun _ => eq_refl).
Definition round_trip_Z2 := @round_trip_kind bool _ _ _ (fun _ => True) _ (fun _ => eq_refl).
Definition round_trip_U1 := @round_trip_kind Z _ _ _ fits_int _ (fun _ => eq_refl).
Lemma fermi_not_plain : forall P : Prop, false = true -> P.
Proof. discriminate. Qed.
Definition round_trip_Fermi := @round_trip_kind fermi16 _ _ _ (fun _ => True) _ (fermi_not_plain _).
Definition round_trip_FermiZ2 := @round_trip_kind (fermi16 * bool) _ _ _ (fun _ => True) _ (fermi_not_plain _).
Definition round_trip_FermiU1 := @round_trip_kind (fermi16 * Z) _ _ _ (fun x => fits_int (snd x)) _ (fermi_not_plain _).

Lemma fast_names_back : forall pad l, fits (length l) -> (forall n, In n l -> (Z.of_nat n < 2 ^ 31)%Z) ->
  reads (@read_names fast_name_io pad) (@write_names fast_name_io pad l) l.
Proof. intros pad l H1 H2. apply (@names_read_back _ _ NameLaws_fast). split; assumption. Qed.
Lemma string_names_back : forall text_of name_of, (forall n, name_of (text_of n) = n) ->
  forall pad l, fits (length l) -> (forall n, In n l -> fits (length (text_of n))) ->
  reads (@read_names (string_name_io text_of name_of) pad) (@write_names (string_name_io text_of name_of) pad l) l.
Proof. intros f g Hi pad l H1 H2. apply (@names_read_back _ _ (NameLaws_string f g Hi)). split; assumption. Qed.

Lemma sequence_round_trip : forall (S R : Type) (SS : Sym S), SymLaws S -> forall (PS : Plain S) (RIO : ScalarIO R) (ok_scalar : R -> Prop), ScalarLaws R ok_scalar ->
  forall (NIO : NameIO) (ok : S -> Prop), PlainLaws S ok -> forall ok_names, NameLaws NIO ok_names -> forall (pad : Z) (junk : R),
  (@is_nosym S SS = true -> @is_fermi S SS = false) ->
  forall ts : list (tensor S R), (forall t, In t ts -> wf_tensor t /\ has_dimensions t /\ storable ok ok_scalar ok_names t) ->
  exists b ts', dump_all pad ts = Ok b /\ reads (load_many pad junk (length ts)) b ts' /\ Forall2 same_tensor ts ts'.
Proof.
  intros S R SS SL PS RIO oks RL NIO ok PL okn NL pad junk Hb ts H. destruct (tensors_round_trip pad junk Hb ts H) as [b [H1 H2]].
  exists b, (map stored ts). split; [exact H1|]. split; [exact H2|]. clear. induction ts; constructor; auto. apply stored_same.
Qed.
Lemma spectrum_round_trip : forall (S R : Type) (SS : Sym S), SymLaws S -> forall (PS : Plain S) (RIO : ScalarIO R) (ok_scalar : R -> Prop), ScalarLaws R ok_scalar ->
  forall ok : S -> Prop, PlainLaws S ok -> forall (pad : Z) (junk : R) (value : list (S * list R)), msorted value -> fits (length value) ->
  (forall s l, In (s, l) value -> ok s /\ fits (length l) /\ forall x, In x l -> ok_scalar x) -> (is_nosym = true -> value <> []) ->
  exists b, dump_singular pad value = Ok b /\ reads (load_singular pad junk) b value.
Proof. intros S R SS SL PS RIO oks RL ok PL pad junk. exact (singular_round_trip pad junk). Qed.
Lemma fresh_table_round_trip : forall pad history, let table := fst (new_names fresh_dataset history) in
  fits (length (id_to_name table)) -> (forall t, In t (id_to_name table) -> fits (length t)) ->
  reads read_table (write_table pad table) table.
Proof. intros pad history table H1 H2. pose proof (table_round_trip pad table H1 H2) as H. unfold table in *. now rewrite load_dump_fresh in H. Qed.

Lemma lattice_file : forall (S R : Type) (SS : Sym S), SymLaws S -> forall (PS : Plain S) (RIO : ScalarIO R) (ok_scalar : R -> Prop), ScalarLaws R ok_scalar ->
  forall (NIO : NameIO) (ok : S -> Prop), PlainLaws S ok -> forall ok_names, NameLaws NIO ok_names -> forall (pad : Z) (junk : R),
  (@is_nosym S SS = true -> @is_fermi S SS = false) ->
  forall hp l, storable_lattice (fun t => wf_tensor t /\ has_dimensions t /\ storable ok ok_scalar ok_names t) hp l ->
  exists b, dump_lattice pad hp l = Ok b /\
  forall hp0 l0, exists new l', reads (load_lattice pad junk hp0 l0) b (hp0 ++ new, l') /\ same_lattice hp (hp0 ++ new) l l'.
Proof. intros S R SS SL PS RIO oks RL NIO ok PL okn NL pad junk Hb hp l H. exact (lattice_round_trip pad junk Hb hp l H). Qed.

(** ** truncation *)
Lemma known_app_None : forall m m', known (m ++ None :: m') = None.
Proof. induction m as [|[b|] m IH]; intros m'; cbn; [reflexivity| |reflexivity]. now rewrite IH. Qed.
Section Truncated.
Context {R : Type} {RIO : ScalarIO R} {oks : R -> Prop} {RL : ScalarLaws R oks} {NIO : NameIO} {okn : list name -> Prop} {NL : NameLaws NIO okn}.
Variables (pad : Z) (junk : R).
Lemma last_lost : forall (t : tensor unit R) (keep : list R) (x : R), wf_tensor t -> has_dimensions t -> storable (fun _ => True) oks okn t ->
  @width R RIO <> 0 -> t_blocks t = [(repeat tt (length (t_names t)), keep ++ [x])] ->
  exists b last t', dump_tensor pad t = Ok (b ++ [last]) /\ load_string pad junk b = Ok t' /\
    t_names t' = t_names t /\ t_blocks t' = [(repeat tt (length (t_names t)), keep ++ [junk])].
Proof.
  intros t keep x W Hd St Hw Hb.
  assert (Hlast : exists l z, scalar_bytes x = l ++ [z]).
  { destruct (exists_last (l := scalar_bytes x)) as [l [z E]]; [|eauto]. intro E. pose proof (scalar_length x) as L. rewrite E in L. cbn in L. congruence. }
  destruct Hlast as [l [z El]]. assert (Ll : S (length l) = @width R RIO) by (rewrite <- (scalar_length x), El, app_length; cbn; lia).
  pose proof (proj1 (@tensor_round_trip unit R _ _ _ _ _ _ _ (fun _ => True) _ okn NL pad junk (fun _ => eq_refl) t W Hd St)) as Hdump.
  set (b := write_names pad (t_names t) ++ (write_count pad (length (t_edges t)) ++ concat (map (edge_bytes pad) (t_edges t)))
            ++ write_count pad (length (keep ++ [x])) ++ concat (map scalar_bytes keep) ++ l).
  exists b, z, (mkTensor (t_names t) (mkCore (map stored_edge (t_edges t)) [(repeat tt (length (t_names t)), keep ++ [junk])])).
  split; [|split; [|split; reflexivity]].
  - rewrite Hdump. f_equal. unfold tensor_bytes, b, data_bytes. rewrite Hb. cbn [is_nosym Sym_No snd]. unfold write_scalars.
    rewrite map_app, concat_app. cbn [map concat]. rewrite app_nil_r, El, <- !app_assoc. reflexivity.
  - unfold load_string, load_tensor, b. rewrite <- !app_assoc. rewrite names_read_back by apply (st_names _ _ _ _ St). cbn [bind fst snd].
    assert (He : forall e, In e (t_edges t) -> reads (read_edge pad) (edge_bytes pad e) (stored_edge e)).
    { intros e Hin. assert (Bose : @is_nosym unit Sym_No = true -> @is_fermi unit Sym_No = false) by reflexivity. refine (proj2 (edge_back pad Bose e (st_edges _ _ _ _ St e Hin) (edges_sorted t W e Hin) _)). intro N. now apply (Hd N). }
    pose proof (read_list_back pad (read_edge pad) (edge_bytes pad) stored_edge (t_edges t) (st_rank _ _ _ _ St) He) as Hl.
    rewrite (app_assoc (write_count pad (length (t_edges t)))). rewrite Hl. cbn [bind fst snd].
    rewrite check_valid_ok; [|apply (wf_nodup t W)|rewrite map_length; apply (wf_rank t W)]. cbn [bind].
    unfold read_data. cbn [is_nosym Sym_No]. unfold read_scalars.
    rewrite (read_count_back pad) by (apply (st_blocks _ _ _ _ St (repeat tt (length (t_names t)))); rewrite Hb; now left). cbn [bind].
    assert (Lk : length (concat (map scalar_bytes keep)) = length keep * (@width R RIO)) by (apply concat_length_same; intros; apply scalar_length).
    unfold read. cbn [negb]. rewrite repeat_length, !app_length, Lk. cbn [length].
    destruct (Nat.leb_spec ((length keep + 1) * (@width R RIO)) (length keep * (@width R RIO) + length l)); [lia|].
    cbn [bind fst snd]. do 4 f_equal. f_equal.
    replace (skipn (length keep * (@width R RIO) + length l) (repeat (@None Z) ((length keep + 1) * (@width R RIO)))) with [@None Z].
    + rewrite map_app, <- app_assoc, map_Some_concat.
      assert (Hcut : forall ks m, cut_pieces (length ks + 1) (@width R RIO) (concat (map (fun a : R => map Some (scalar_bytes a)) ks) ++ m)
                     = map (fun a => map Some (scalar_bytes a)) ks ++ cut_pieces 1 (@width R RIO) m).
      { induction ks as [|k ks IH]; intro m; [reflexivity|]. cbn [length Nat.add cut_pieces map concat app].
        assert (Ek : length (map Some (scalar_bytes k)) = @width R RIO) by (rewrite map_length; apply scalar_length).
        rewrite <- !app_assoc. rewrite firstn_app, skipn_app, Ek, Nat.sub_diag, <- Ek, firstn_all, skipn_all, Ek. cbn [firstn skipn app]. rewrite app_nil_r. f_equal. apply IH. }
      rewrite Hcut, map_app, map_map. f_equal.
      * etransitivity; [|apply map_id]. apply map_ext_in. intros k Hk. rewrite known_map_Some. apply scalar_of_bytes.
        apply (st_blocks _ _ _ _ St (repeat tt (length (t_names t))) (keep ++ [x])); [rewrite Hb; now left|apply in_or_app; now left].
      * cbn [cut_pieces map]. rewrite firstn_all2 by (rewrite app_length, map_length; cbn; lia). now rewrite known_app_None.
    + replace ((length keep + 1) * (@width R RIO)) with ((length keep * (@width R RIO) + length l) + 1) by lia.
      rewrite repeat_app, skipn_app, repeat_length, Nat.sub_diag, skipn_all2 by (rewrite repeat_length; lia). reflexivity.
Qed.
End Truncated.
Lemma last_element_lost : forall (R : Type) (RIO : ScalarIO R) (ok_scalar : R -> Prop), ScalarLaws R ok_scalar ->
  forall (NIO : NameIO) (ok_names : list name -> Prop), NameLaws NIO ok_names ->
  forall (pad : Z) (junk : R) (t : tensor unit R) (keep : list R) (x : R), wf_tensor t -> has_dimensions t -> storable (fun _ => True) ok_scalar ok_names t ->
  @width R RIO <> 0 -> t_blocks t = [(repeat tt (length (t_names t)), keep ++ [x])] ->
  exists b last t', dump_tensor pad t = Ok (b ++ [last]) /\ load_string pad junk b = Ok t' /\
    t_names t' = t_names t /\ t_blocks t' = [(repeat tt (length (t_names t)), keep ++ [junk])].
Proof. intros R RIO oks RL NIO okn NL. exact (@last_lost R RIO oks RL NIO okn NL). Qed.
Lemma truncation_silent : ~ (forall (junk : Z) (t : tensor unit Z) b missing t', wf_tensor t -> has_dimensions t -> missing <> [] ->
  @dump_tensor unit Z _ _ _ fast_name_io 0 t = Ok (b ++ missing) -> @load_string unit Z _ _ _ fast_name_io 0 junk b = Ok t' -> False).
Proof.
  intro C. set (t := range_tensor [7; 3] [mkEdge false [(tt, 2)]; mkEdge false [(tt, 1)]]).
  destruct (@dump_tensor unit Z _ _ _ fast_name_io 0 t) as [b| | |] eqn:E; try (vm_compute in E; discriminate E).
  destruct (@load_string unit Z _ _ _ fast_name_io 0 5%Z (firstn (length b - 1) b)) as [t'| | |] eqn:E';
    try (vm_compute in E; injection E as <-; vm_compute in E'; discriminate E').
  apply (C 5%Z t (firstn (length b - 1) b) (skipn (length b - 1) b) t'); [| | |now rewrite firstn_skipn|exact E'].
  - apply range_wf. reflexivity.
  - intros _ e. vm_compute. intros [<-|[<-|[]]]; discriminate.
  - vm_compute in E. injection E as <-. discriminate.
Qed.

(** ** names elsewhere *)
Lemma names_swapped : ~ (forall pad h1 h2 l, let here := fst (new_names fresh_dataset h1) in let there := fst (new_names fresh_dataset h2) in
  (forall n, In n l -> exists s, name_text here n = Ok s) ->
  exists l', reads (@read_names fast_name_io pad) (@write_names fast_name_io pad l) l' /\ mapM (name_text there) l' = mapM (name_text here) l).
Proof.
  intro C. destruct (C 0%Z [[76]; [82]] [[82]; [76]] [1]) as [l' [H1 H2]].
  - intros n [<-|[]]. exists [76]. reflexivity.
  - specialize (H1 []). rewrite (fast_names_back 0 [1]) in H1; [|reflexivity|intros n [<-|[]]; reflexivity]. injection H1 as <-. discriminate.
Qed.
Lemma names_with_table : forall pad h1 l, let here := fst (new_names fresh_dataset h1) in
  fits (length (id_to_name here)) -> (forall t, In t (id_to_name here) -> fits (length t)) ->
  fits (length l) -> (forall n, In n l -> (Z.of_nat n < 2 ^ 31)%Z) ->
  forall rest, exists there l' s, read_table (write_table pad here ++ @write_names fast_name_io pad l ++ rest, true) = Ok (there, s) /\
    @read_names fast_name_io pad s = Ok (l', (rest, true)) /\ mapM (name_text there) l' = mapM (name_text here) l.
Proof.
  intros pad h1 l here H1 H2 H3 H4 rest. exists here, l, (@write_names fast_name_io pad l ++ rest, true).
  split; [now apply fresh_table_round_trip|]. split; [now apply fast_names_back|reflexivity].
Qed.
