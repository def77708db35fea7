(** C28: binary dump and load are inverse.  C48: lattice files.  C58: truncated dumps.  C59: names in another process. *)
From Coq Require Import List Bool Arith ZArith.
From Verif Require Import Base.Outcome Base.SMap Model.Symmetry Model.Edge Model.Core Model.Names Model.Binary Spec.Binary.
From Verif Require Import Proof.SymmetryFacts Proof.CoreFacts Proof.BinaryFacts Proof.BinaryTensor Proof.BinaryLattice Proof.BinaryTables Proof.ScalarZ Proof.ExTensors Proof.ExBinary.
Import ListNotations.

(** ** C28.  For charges of type S, those in [ok] being representable: every tensor is dumped, and loading at the place where it was written
    gives an equal tensor and stops exactly behind it, whatever follows.  Scalars, names and padding bytes are arbitrary. *)
Definition C28_for (S : Type) {SS : Sym S} {PS : Plain S} (ok : S -> Prop) : Prop :=
  forall (R : Type) (RIO : ScalarIO R) (ok_scalar : R -> Prop), ScalarLaws R ok_scalar ->
  forall (NIO : NameIO) (ok_names : list name -> Prop), NameLaws NIO ok_names ->
  forall (pad : Z) (junk : R) (t : tensor S R), wf_tensor t -> has_dimensions t -> storable ok ok_scalar ok_names t ->
  exists b t', dump_tensor pad t = Ok b /\ reads (load_tensor pad junk) b t' /\ same_tensor t t'.
Theorem C28_plain : C28_for unit (fun _ => True).
Proof. exact round_trip_plain. Qed.
Print Assumptions C28_plain.
Theorem C28_Z2 : C28_for bool (fun _ => True).
Proof. exact round_trip_Z2. Qed.
Print Assumptions C28_Z2.
Theorem C28_U1 : C28_for Z fits_int.
Proof. exact round_trip_U1. Qed.
Print Assumptions C28_U1.
Theorem C28_Fermi : C28_for fermi16 (fun _ => True).
Proof. exact round_trip_Fermi. Qed.
Print Assumptions C28_Fermi.
Theorem C28_FermiZ2 : C28_for (fermi16 * bool) (fun _ => True).
Proof. exact round_trip_FermiZ2. Qed.
Print Assumptions C28_FermiZ2.
Theorem C28_FermiU1 : C28_for (fermi16 * Z) (fun x => fits_int (snd x)).
Proof. exact round_trip_FermiU1. Qed.
Print Assumptions C28_FermiU1.
(** the two kinds of names *)
Theorem C28_fast_names : forall pad l, fits (length l) -> (forall n, In n l -> (Z.of_nat n < 2 ^ 31)%Z) ->
  reads (@read_names fast_name_io pad) (@write_names fast_name_io pad l) l.
Proof. exact fast_names_back. Qed.
Print Assumptions C28_fast_names.
Theorem C28_string_names : forall text_of name_of, (forall n, name_of (text_of n) = n) ->
  forall pad l, fits (length l) -> (forall n, In n l -> fits (length (text_of n))) ->
  reads (@read_names (string_name_io text_of name_of) pad) (@write_names (string_name_io text_of name_of) pad l) l.
Proof. exact string_names_back. Qed.
Print Assumptions C28_string_names.
(** any number of tensors in one stream *)
Theorem C28_sequence : forall (S R : Type) (SS : Sym S), SymLaws S -> forall (PS : Plain S) (RIO : ScalarIO R) (ok_scalar : R -> Prop), ScalarLaws R ok_scalar ->
  forall (NIO : NameIO) (ok : S -> Prop), PlainLaws S ok -> forall ok_names, NameLaws NIO ok_names -> forall (pad : Z) (junk : R),
  (@is_nosym S SS = true -> @is_fermi S SS = false) ->
  forall ts : list (tensor S R), (forall t, In t ts -> wf_tensor t /\ has_dimensions t /\ storable ok ok_scalar ok_names t) ->
  exists b ts', dump_all pad ts = Ok b /\ reads (load_many pad junk (length ts)) b ts' /\ Forall2 same_tensor ts ts'.
Proof. exact sequence_round_trip. Qed.
Print Assumptions C28_sequence.
(** spectra and tables of names *)
Theorem C28_spectra : forall (S R : Type) (SS : Sym S), SymLaws S -> forall (PS : Plain S) (RIO : ScalarIO R) (ok_scalar : R -> Prop), ScalarLaws R ok_scalar ->
  forall ok : S -> Prop, PlainLaws S ok -> forall (pad : Z) (junk : R) (value : list (S * list R)), msorted value -> fits (length value) ->
  (forall s l, In (s, l) value -> ok s /\ fits (length l) /\ forall x, In x l -> ok_scalar x) -> (is_nosym = true -> value <> []) ->
  exists b, dump_singular pad value = Ok b /\ reads (load_singular pad junk) b value.
Proof. exact spectrum_round_trip. Qed.
Print Assumptions C28_spectra.
Theorem C28_name_table : forall pad history, let table := fst (new_names fresh_dataset history) in
  fits (length (id_to_name table)) -> (forall t, In t (id_to_name table) -> fits (length t)) ->
  reads read_table (write_table pad table) table.
Proof. exact fresh_table_round_trip. Qed.
Print Assumptions C28_name_table.

Definition ex_u1 : tensor Z Z := range_tensor [3; 500] [mkEdge false [((-1)%Z, 2); (0%Z, 1)]; mkEdge false [(0%Z, 2); (1%Z, 1)]].
Example C28_example_hypotheses : wf_tensor ex_u1 /\ has_dimensions ex_u1 /\ storable fits_int int64 fast_ok ex_u1.
Proof.
  split; [apply range_wf; reflexivity|]. split; [discriminate|]. apply (storableb_ok int32b fits_int int32b_ok). vm_compute. reflexivity.
Qed.
Example C28_example : @dump_tensor Z Z _ _ _ fast_name_io 170 ex_u1 = Ok
  ([2; 0; 0; 0; 0; 0; 0; 0;  3; 0; 0; 0;  244; 1; 0; 0;
    2; 0; 0; 0; 0; 0; 0; 0;
    2; 0; 0; 0; 0; 0; 0; 0;  255; 255; 255; 255;  2; 0; 0; 0; 0; 0; 0; 0;  0; 0; 0; 0;  1; 0; 0; 0; 0; 0; 0; 0;
    2; 0; 0; 0; 0; 0; 0; 0;  0; 0; 0; 0;  2; 0; 0; 0; 0; 0; 0; 0;  1; 0; 0; 0;  1; 0; 0; 0; 0; 0; 0; 0;
    2; 0; 0; 0; 0; 0; 0; 0;
    2; 0; 0; 0; 0; 0; 0; 0;  255; 255; 255; 255;  1; 0; 0; 0;  2; 0; 0; 0; 0; 0; 0; 0;  1; 0; 0; 0; 0; 0; 0; 0;  2; 0; 0; 0; 0; 0; 0; 0;
    2; 0; 0; 0; 0; 0; 0; 0;  0; 0; 0; 0;  0; 0; 0; 0;  2; 0; 0; 0; 0; 0; 0; 0;  3; 0; 0; 0; 0; 0; 0; 0;  4; 0; 0; 0; 0; 0; 0; 0])%Z.
Proof. vm_compute. reflexivity. Qed.
(** padding and arrows *)
Example C28_example_fermi : write_edge 170 (mkEdge true [((to_fermi (-2), 7%Z), 3)]) = Ok
  ([1; 1; 0; 0; 0; 0; 0; 0; 0; 254; 255; 170; 170; 7; 0; 0; 0; 3; 0; 0; 0; 0; 0; 0; 0])%Z.
Proof. reflexivity. Qed.
Definition ex_plain : tensor unit Z := range_tensor [7; 3] [mkEdge false [(tt, 2)]; mkEdge false [(tt, 1)]].
Example C28_example_plain_hypotheses : wf_tensor ex_plain /\ has_dimensions ex_plain /\ storable (fun _ => True) int64 fast_ok ex_plain.
Proof.
  split; [apply range_wf; reflexivity|]. split; [intros _ e; vm_compute; intros [<-|[<-|[]]]; discriminate|].
  apply (storableb_ok (fun _ => true)); [trivial|]. vm_compute. reflexivity.
Qed.

(** ** C48.  Loading a dumped lattice, in any process and into any lattice object: the same size and terms, each with an equal operator, and terms
    share an operator after loading exactly if they did before. *)
Theorem C48_lattice_file : forall (S R : Type) (SS : Sym S), SymLaws S -> forall (PS : Plain S) (RIO : ScalarIO R) (ok_scalar : R -> Prop), ScalarLaws R ok_scalar ->
  forall (NIO : NameIO) (ok : S -> Prop), PlainLaws S ok -> forall ok_names, NameLaws NIO ok_names -> forall (pad : Z) (junk : R),
  (@is_nosym S SS = true -> @is_fermi S SS = false) ->
  forall hp l, storable_lattice (fun t => wf_tensor t /\ has_dimensions t /\ storable ok ok_scalar ok_names t) hp l ->
  exists b, dump_lattice pad hp l = Ok b /\
  forall hp0 l0, exists new l', reads (load_lattice pad junk hp0 l0) b (hp0 ++ new, l') /\ same_lattice hp (hp0 ++ new) l l'.
Proof. exact @lattice_file. Qed.
Print Assumptions C48_lattice_file.
(** one operator shared by two of three terms *)
Definition ex_lattice : lattice := mkLattice 2 2 2 [([(0, 0); (0, 1)]%Z, 1); ([(0, 0); (1, 0)]%Z, 0); ([(1, 0); (1, 1)]%Z, 1)].
Definition ex_heap : list (tensor unit Z) := [ex_plain; range_tensor [1] [mkEdge false [(tt, 3)]]].
Example C48_example_hypotheses : storable_lattice (fun t => wf_tensor t /\ has_dimensions t /\ storable (fun _ => True) int64 fast_ok t) ex_heap ex_lattice.
Proof.
  constructor. - split; now vm_compute. - split; now vm_compute. - now vm_compute.
  - unfold msorted. repeat constructor. - now vm_compute.
  - intros p i [E|[E|[E|[]]]]; injection E as <- <-; (split; [reflexivity|]); (split; [intros xy [<-|[<-|[]]]; split; split; now vm_compute|]);
      eexists; (split; [reflexivity|]); (split; [apply range_wf; reflexivity|]);
      (split; [intros _ e; vm_compute; intros H; repeat destruct H as [<-|H]; try discriminate; destruct H|
               apply (storableb_ok (fun _ => true)); [trivial|]; vm_compute; reflexivity]).
Qed.
Example C48_example : exists b, @dump_lattice unit Z _ _ _ fast_name_io 0 ex_heap ex_lattice = Ok b /\
  @load_lattice unit Z _ _ _ fast_name_io 0 77%Z [ex_plain] (mkLattice 0 0 0 []) (b, true)
  = Ok (([ex_plain; range_tensor [1] [mkEdge false [(tt, 3)]]; ex_plain],
         mkLattice 2 2 2 [([(0, 0); (0, 1)]%Z, 1); ([(0, 0); (1, 0)]%Z, 2); ([(1, 0); (1, 1)]%Z, 1)]), ([], true)).
Proof. eexists. split; [vm_compute; reflexivity|]. vm_compute. reflexivity. Qed.

(** ** C58.  Full statement, false of the code: loading a dump whose end is missing raises an error. *)
Definition C58_claim : Prop := forall (junk : Z) (t : tensor unit Z) b missing t', wf_tensor t -> has_dimensions t -> missing <> [] ->
  @dump_tensor unit Z _ _ _ fast_name_io 0 t = Ok (b ++ missing) -> @load_string unit Z _ _ _ fast_name_io 0 junk b = Ok t' -> False.
Theorem C58_truncation_reported_refuted : ~ C58_claim.
Proof. exact truncation_silent. Qed.
Print Assumptions C58_truncation_reported_refuted.
(** not only is there no error: elements of the result are indeterminate, for every plain tensor with elements and every cut through the elements *)
Theorem C58_elements_indeterminate_refuted : forall (R : Type) (RIO : ScalarIO R) (ok_scalar : R -> Prop), ScalarLaws R ok_scalar ->
  forall (NIO : NameIO) (ok_names : list name -> Prop), NameLaws NIO ok_names ->
  forall (pad : Z) (junk : R) (t : tensor unit R) (keep : list R) (x : R), wf_tensor t -> has_dimensions t -> storable (fun _ => True) ok_scalar ok_names t ->
  @width R RIO <> 0 -> t_blocks t = [(repeat tt (length (t_names t)), keep ++ [x])] ->
  exists b last t', dump_tensor pad t = Ok (b ++ [last]) /\ load_string pad junk b = Ok t' /\
    t_names t' = t_names t /\ t_blocks t' = [(repeat tt (length (t_names t)), keep ++ [junk])].
Proof. exact last_element_lost. Qed.
Print Assumptions C58_elements_indeterminate_refuted.

(** ** C59.  Full statement, false of the code for interned names (only their numbers are written): a tensor loaded in another process has edges
    with the same strings. *)
Definition C59_claim : Prop := forall pad h1 h2 l, let here := fst (new_names fresh_dataset h1) in let there := fst (new_names fresh_dataset h2) in
  (forall n, In n l -> exists s, name_text here n = Ok s) ->
  exists l', reads (@read_names fast_name_io pad) (@write_names fast_name_io pad l) l' /\ mapM (name_text there) l' = mapM (name_text here) l.
Theorem C59_names_elsewhere_refuted : ~ C59_claim.
Proof. exact names_swapped. Qed.
Print Assumptions C59_names_elsewhere_refuted.
(** what holds: in a process that has loaded the table of names before; and always when names are strings *)
Theorem C59_names_elsewhere_partial : forall pad h1 l, let here := fst (new_names fresh_dataset h1) in
  fits (length (id_to_name here)) -> (forall t, In t (id_to_name here) -> fits (length t)) ->
  fits (length l) -> (forall n, In n l -> (Z.of_nat n < 2 ^ 31)%Z) ->
  forall rest, exists there l' s, read_table (write_table pad here ++ @write_names fast_name_io pad l ++ rest, true) = Ok (there, s) /\
    @read_names fast_name_io pad s = Ok (l', (rest, true)) /\ mapM (name_text there) l' = mapM (name_text here) l.
Proof. exact names_with_table. Qed.
Print Assumptions C59_names_elsewhere_partial.
Example C59_example : let here := fst (new_names fresh_dataset [[76]; [82]]) in
  mapM (name_text here) [2; 1; 0] = Ok [[82]; [76]; []] /\ read_table (write_table 0 here, true) = Ok (here, ([], true)).
Proof. split; reflexivity. Qed.
