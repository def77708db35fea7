(** C29: the text of a plain tensor can be read back.  C30: the text of a symmetric tensor can be read back.
    Texts are followed by anything; [fuel] bounds the loops of the reader, which have no bound in the code: every fuel from the length of the text on
    gives the same, so the loops end by themselves. *)
From Coq Require Import String.
From Coq Require Import List Bool Arith ZArith Lia.
From Verif Require Import Base.Outcome Base.SMap Model.Symmetry Model.Edge Model.Core Model.Names Model.Text Spec.Binary Spec.Text.
From Verif Require Import Proof.SymmetryFacts Proof.CoreFacts Proof.BinaryFacts Proof.BinaryTensor Proof.TextFacts Proof.TextTensor Proof.TextKinds Proof.TextNames Proof.TextSpectra Proof.ScalarZ Proof.ExTensors Proof.ExBinary Proof.ExText.
Import ListNotations.

(** printing succeeds, and reading stops exactly behind the text with a tensor that prints alike *)
Definition prints_and_reads {S R : Type} {SS : Sym S} {ST : SymText S} {RT : ScalarText R} (colour origin : text) (junk : R) text_of intern (t : tensor S R) : Prop :=
  exists shown, show_tensor colour origin text_of t = Ok shown /\
  forall fuel, length shown <= fuel -> exists t', shown_alike t t' /\ scans (scan_tensor fuel junk intern) shown t'.
(** printing succeeds, and reading goes on for ever *)
Definition prints_and_hangs {S R : Type} {SS : Sym S} {ST : SymText S} {RT : ScalarText R} (follows : text -> Prop) (junk : R) text_of intern (t : tensor S R) : Prop :=
  exists shown, show_tensor console_yellow console_origin text_of t = Ok shown /\
  forall fuel rest, length shown <= fuel -> follows rest -> scan_tensor fuel junk intern (ahead (shown ++ rest)) = OutOfFuel.

(** ** C29 *)
Definition C29_claim : Prop := forall (R : Type) (RT : ScalarText R) (junk : R) text_of intern (t : tensor unit R) texts,
  wf_tensor t -> has_dimensions t -> interned text_of intern (t_names t) texts -> (forall x, In x texts -> separator_free x) -> printable (fun _ => True) t ->
  prints_and_reads console_yellow console_origin junk text_of intern t.
(** a single name that is the empty string: an exception *)
Definition ex_empty : tensor unit Z := range_tensor [0] [mkEdge false [(tt, 2)]].
Theorem C29_refuted : ~ C29_claim.
Proof.
  intro H. destruct (H Z _ 0%Z (fun _ => Ok []) (map (fun _ => 0)) ex_empty [[]]) as [shown [E K]].
  - apply range_wf. reflexivity.
  - intros _ e He. destruct He as [<-|[]]. discriminate.
  - split; reflexivity.
  - intros x [<-|[]] c [].
  - apply (printableb_ok (fun _ => true)); [intros; exact I|vm_compute; reflexivity].
  - vm_compute in E. injection E as <-. destruct (K 100) as [t' [_ G]]; [vm_compute; repeat constructor|]. specialize (G []). vm_compute in G. discriminate G.
Qed.
Print Assumptions C29_refuted.
(** names of more than 255 characters overrun the buffer, for all kinds of tensors *)
Theorem C29_long_names : forall (S R : Type) (SS : Sym S), SymLaws S -> forall (ST : SymText S) (RT : ScalarText R) colour origin (junk : R) text_of intern (t : tensor S R) texts,
  wf_tensor t -> has_dimensions t -> interned text_of intern (t_names t) texts -> (forall x, In x texts -> separator_free x) -> (exists x, In x texts /\ 255 < length x) ->
  exists shown, show_tensor colour origin text_of t = Ok shown /\ forall fuel rest, length shown <= fuel -> scan_tensor fuel junk intern (ahead (shown ++ rest)) = UB.
Proof. exact long_name_overflows. Qed.
Print Assumptions C29_long_names.
Example C29_long_names_example : let t := repeat 97 256 in
  wf_tensor ex_empty /\ has_dimensions ex_empty /\ interned (fun _ => Ok t) (map (fun _ => 0)) (t_names ex_empty) [t] /\ (forall x, In x [t] -> separator_free x) /\ 255 < length t.
Proof.
  cbn zeta. split; [apply range_wf; reflexivity|]. split; [intros _ e He; destruct He as [<-|[]]; discriminate|]. split; [split; reflexivity|]. split.
  - intros x [<-|[]] c Hc. apply repeat_spec in Hc. subst c. lia.
  - rewrite repeat_length. lia.
Qed.
(** all others.  Missing: a rank of one with the empty name, and names of more than 255 characters *)
Theorem C29_partial : forall (R : Type) (RT : ScalarText R) (junk : R) text_of intern (t : tensor unit R) texts,
  wf_tensor t -> has_dimensions t -> interned text_of intern (t_names t) texts -> readable_names texts -> printable (fun _ => True) t ->
  prints_and_reads console_yellow console_origin junk text_of intern t.
Proof. exact plain_text. Qed.
Print Assumptions C29_partial.
(** names of a process that met them in any order: they are found again, and the table of names does not change *)
Theorem C29_names : forall history names texts, let table := fst (new_names fresh_dataset history) in
  mapM (name_text table) names = Ok texts ->
  interned (name_text table) (fun ts => snd (new_names table ts)) names texts /\ fst (new_names table texts) = table.
Proof. exact fast_interned. Qed.
Print Assumptions C29_names.
(** complex elements are readable if their parts are *)
Theorem C29_complex : forall (F : Type) (FT : RealText F) (ok : F -> Prop), RealTextLaws F ok -> forall re im : F, ok re -> ok im -> @readable (F * F) _ (re, im).
Proof. exact complex_readable. Qed.
Print Assumptions C29_complex.
(** spectra *)
Theorem C29_spectra : forall (R : Type) (RT : ScalarText R) (junk : R) (l : list R), (forall x, In x l -> readable x) ->
  exists shown, show_singular console_yellow console_origin [(tt, l)] = Ok shown /\
  forall fuel, length shown <= fuel -> exists l', Forall2 same_text l l' /\ scans (scan_singular fuel junk) shown [(tt, l')].
Proof. exact plain_spectrum_text. Qed.
Print Assumptions C29_spectra.

Definition ex_table := fst (new_names fresh_dataset [lit "left"; lit "right"]).
Definition ex_text : name -> res text := name_text ex_table.
Definition ex_intern (ts : list text) : list name := snd (new_names ex_table ts).
Definition ex_names : list name := ex_intern [lit "right"; lit "left"].
Definition ex_plain : tensor unit Z := range_tensor ex_names [mkEdge false [(tt, 2)]; mkEdge false [(tt, 3)]].
Example C29_example_hypotheses : wf_tensor ex_plain /\ has_dimensions ex_plain /\ interned ex_text ex_intern (t_names ex_plain) [lit "right"; lit "left"] /\
  readable_names [lit "right"; lit "left"] /\ printable (fun _ => True) ex_plain.
Proof.
  split; [apply range_wf; vm_compute; reflexivity|]. split; [intros _ e He; destruct He as [<-|[<-|[]]]; discriminate|].
  split; [split; vm_compute; reflexivity|]. split; [apply readable_namesb_ok; vm_compute; reflexivity|].
  apply (printableb_ok (fun _ => true)); [intros; exact I|vm_compute; reflexivity].
Qed.
Example C29_example_text : show_tensor [] [] ex_text ex_plain = Ok (lit "{" ++ console_green ++ lit "names" ++ console_origin ++ lit ":[right,left]," ++
  console_green ++ lit "edges" ++ console_origin ++ lit ":[2,3]," ++ console_green ++ lit "blocks" ++ console_origin ++ lit ":[1,2,3,4,5,6]}").
Proof. vm_compute. reflexivity. Qed.
Example C29_example_back : match show_tensor console_yellow console_origin ex_text ex_plain with
  | Ok shown => scan_tensor (length shown) 0%Z ex_intern (ahead (shown ++ lit " and more")) = Ok (ex_plain, ahead (lit " and more"))
  | _ => False end.
Proof. vm_compute. reflexivity. Qed.
Example C29_example_complex : print_scalar ((-12)%Z, 5%Z) = lit "-12+5i" /\ print_scalar (0%Z, (-7)%Z) = lit "-7i" /\
  scan_scalar (0%Z, 0%Z) (ahead (lit "-12+5i,")) = Ok (((-12)%Z, 5%Z), ahead (lit ",")).
Proof. repeat split; vm_compute; reflexivity. Qed.

(** ** C30, for charges of type S, those in [ok] being representable *)
Definition C30_for (S : Type) {SS : Sym S} {ST : SymText S} (ok : S -> Prop) (colour origin : text) (sort : forall R, tensor S R -> Prop) : Prop :=
  forall (R : Type) (RT : ScalarText R) (junk : R) text_of intern (t : tensor S R) texts, sort R t ->
  wf_tensor t -> interned text_of intern (t_names t) texts -> readable_names texts -> printable ok t ->
  prints_and_reads colour origin junk text_of intern t.
Definition every {S} (R : Type) (t : tensor S R) : Prop := True.
Definition C30_claim : Prop :=
  C30_for bool (fun _ => True) console_yellow console_origin every /\ C30_for Z fits_int console_yellow console_origin every /\
  C30_for fermi16 (fun _ => True) console_yellow console_origin every /\
  C30_for (fermi16 * bool) (fun _ => True) console_yellow console_origin every /\ C30_for (fermi16 * Z) (fun x => fits_int (snd x)) console_yellow console_origin every.
(** if charges are single numbers, reading any tensor with a block never ends *)
Definition C30_hangs_for (S : Type) {SS : Sym S} {ST : SymText S} (ok : S -> Prop) : Prop :=
  forall (R : Type) (RT : ScalarText R) (junk : R) text_of intern (t : tensor S R) texts, t_blocks t <> [] ->
  wf_tensor t -> interned text_of intern (t_names t) texts -> readable_names texts -> printable ok t ->
  exists shown, show_tensor console_yellow console_origin text_of t = Ok shown /\
  forall fuel rest, length shown <= fuel -> scan_tensor fuel junk intern (ahead (shown ++ rest)) = OutOfFuel.
Theorem C30_hangs_Z2 : C30_hangs_for bool (fun _ => True).
Proof. exact (coloured_lost (TL := SymTextLaws_Z2) eq_refl lost_Z2). Qed.
Print Assumptions C30_hangs_Z2.
Theorem C30_hangs_U1 : C30_hangs_for Z fits_int.
Proof. exact (coloured_lost (TL := SymTextLaws_U1) eq_refl lost_U1). Qed.
Print Assumptions C30_hangs_U1.
Theorem C30_hangs_Fermi : C30_hangs_for fermi16 (fun _ => True).
Proof. exact (coloured_lost (TL := SymTextLaws_Fermi) eq_refl lost_Fermi). Qed.
Print Assumptions C30_hangs_Fermi.

Definition ex_Z2 : tensor bool Z := range_tensor ex_names [mkEdge false [(false, 1); (true, 2)]; mkEdge false [(false, 2); (true, 1)]].
Example C30_example_hypotheses : t_blocks ex_Z2 <> [] /\ wf_tensor ex_Z2 /\ interned ex_text ex_intern (t_names ex_Z2) [lit "right"; lit "left"] /\
  readable_names [lit "right"; lit "left"] /\ printable (fun _ => True) ex_Z2.
Proof.
  split; [vm_compute; discriminate|]. split; [apply range_wf; vm_compute; reflexivity|].
  split; [split; vm_compute; reflexivity|]. split; [apply readable_namesb_ok; vm_compute; reflexivity|].
  apply (printableb_ok (fun _ => true)); [intros; exact I|vm_compute; reflexivity].
Qed.
Theorem C30_refuted : ~ C30_claim.
Proof.
  intros [H _]. destruct C30_example_hypotheses as [H0 [H1 [H2 [H3 H4]]]].
  destruct (H Z _ 0%Z ex_text ex_intern ex_Z2 _ I H1 H2 H3 H4) as [shown [E K]]. destruct (K _ (le_n _)) as [t' [_ G]].
  destruct (C30_hangs_Z2 Z _ 0%Z ex_text ex_intern ex_Z2 _ H0 H1 H2 H3 H4) as [shown' [E' K']]. rewrite E in E'. injection E' as <-.
  specialize (G []). rewrite K' in G by apply le_n. discriminate G.
Qed.
Print Assumptions C30_refuted.
(** without the colours of the charges every kind is read *)
Theorem C30_uncoloured_Z2 : C30_for bool (fun _ => True) [] [] every.
Proof. exact (fun R RT junk text_of intern t texts _ => uncoloured (TL := SymTextLaws_Z2) eq_refl R RT junk text_of intern t texts). Qed.
Print Assumptions C30_uncoloured_Z2.
Theorem C30_uncoloured_U1 : C30_for Z fits_int [] [] every.
Proof. exact (fun R RT junk text_of intern t texts _ => uncoloured (TL := SymTextLaws_U1) eq_refl R RT junk text_of intern t texts). Qed.
Print Assumptions C30_uncoloured_U1.
Theorem C30_uncoloured_Fermi : C30_for fermi16 (fun _ => True) [] [] every.
Proof. exact (fun R RT junk text_of intern t texts _ => uncoloured (TL := SymTextLaws_Fermi) eq_refl R RT junk text_of intern t texts). Qed.
Print Assumptions C30_uncoloured_Fermi.
Theorem C30_uncoloured_FermiZ2 : C30_for (fermi16 * bool) (fun _ => True) [] [] every.
Proof. exact (fun R RT junk text_of intern t texts _ => uncoloured (TL := SymTextLaws_FermiZ2) eq_refl R RT junk text_of intern t texts). Qed.
Print Assumptions C30_uncoloured_FermiZ2.
Theorem C30_uncoloured_FermiU1 : C30_for (fermi16 * Z) (fun x => fits_int (snd x)) [] [] every.
Proof. exact (fun R RT junk text_of intern t texts _ => uncoloured (TL := SymTextLaws_FermiU1) eq_refl R RT junk text_of intern t texts). Qed.
Print Assumptions C30_uncoloured_FermiU1.
(** with colours: pairs are found behind them, if there is one.  Missing: the kinds of charges that are single numbers, and a rank of zero *)
Definition ranked {S} (R : Type) (t : tensor S R) : Prop := t_names t <> [].
Theorem C30_FermiZ2_partial : C30_for (fermi16 * bool) (fun _ => True) console_yellow console_origin ranked.
Proof. exact (coloured_found (TL := SymTextLaws_FermiZ2) eq_refl found_FermiZ2). Qed.
Print Assumptions C30_FermiZ2_partial.
Theorem C30_FermiU1_partial : C30_for (fermi16 * Z) (fun x => fits_int (snd x)) console_yellow console_origin ranked.
Proof. exact (coloured_found (TL := SymTextLaws_FermiU1) eq_refl found_FermiU1). Qed.
Print Assumptions C30_FermiU1_partial.
(** rank zero: reading never ends unless a bracket happens to follow *)
Theorem C30_hangs_FermiZ2_number : forall (R : Type) (RT : ScalarText R) (junk : R) text_of intern (t : tensor (fermi16 * bool) R) x,
  wf_tensor t -> interned text_of intern [] [] -> t_names t = [] -> t_blocks t = [([], [x])] -> printable (fun _ => True) t -> ~ In open_pair (print_scalar x) ->
  prints_and_hangs (fun rest => ~ In open_pair rest) junk text_of intern t.
Proof. exact (fun R RT => number_lost (TL := SymTextLaws_FermiZ2) (scan_bool false) eq_refl (scan_number_stuck to_bool false) eq_refl). Qed.
Print Assumptions C30_hangs_FermiZ2_number.
Theorem C30_hangs_FermiU1_number : forall (R : Type) (RT : ScalarText R) (junk : R) text_of intern (t : tensor (fermi16 * Z) R) x,
  wf_tensor t -> interned text_of intern [] [] -> t_names t = [] -> t_blocks t = [([], [x])] -> printable (fun x => fits_int (snd x)) t -> ~ In open_pair (print_scalar x) ->
  prints_and_hangs (fun rest => ~ In open_pair rest) junk text_of intern t.
Proof. exact (fun R RT => number_lost (TL := SymTextLaws_FermiU1) (scan_int 0) eq_refl (scan_number_stuck (to_signed 32) 0%Z) eq_refl). Qed.
Print Assumptions C30_hangs_FermiU1_number.

(** spectra: the same *)
Definition C30_spectra_hang_for (S : Type) {SS : Sym S} {ST : SymText S} : Prop :=
  forall (R : Type) (RT : ScalarText R) (junk : R), (forall x : R, stuck (scan_scalar x)) -> forall v : list (S * list R), v <> [] ->
  exists shown, show_singular console_yellow console_origin v = Ok shown /\ forall fuel rest, scan_singular fuel junk (ahead (shown ++ rest)) = OutOfFuel.
Theorem C30_spectra_hang_Z2 : C30_spectra_hang_for bool.
Proof. exact (fun R RT junk => spectrum_lost (ST := SymText_Z2) eq_refl junk to_bool false false eq_refl eq_refl). Qed.
Print Assumptions C30_spectra_hang_Z2.
Theorem C30_spectra_hang_U1 : C30_spectra_hang_for Z.
Proof. exact (fun R RT junk => spectrum_lost (ST := SymText_U1) eq_refl junk (to_signed 32) 0%Z 0%Z eq_refl eq_refl). Qed.
Print Assumptions C30_spectra_hang_U1.
Theorem C30_spectra_hang_Fermi : C30_spectra_hang_for fermi16.
Proof. exact (fun R RT junk => spectrum_lost (ST := SymText_Fermi) eq_refl junk (fun v => let (z, ok) := to_signed 16 v in (to_fermi z, ok)) (to_fermi 0) (to_fermi 0) eq_refl eq_refl). Qed.
Print Assumptions C30_spectra_hang_Fermi.
Example C30_example_stuck : forall x : Z, stuck (scan_scalar x).
Proof. exact stuck_Z. Qed.
Theorem C30_spectra_FermiZ2 : forall (R : Type) (RT : ScalarText R) (junk : R) (v : list (fermi16 * bool * list R)), msorted v -> (forall k l x, In (k, l) v -> In x l -> readable x) ->
  exists shown, show_singular console_yellow console_origin v = Ok shown /\
  forall fuel, length shown <= fuel -> exists v', spectra_alike v v' /\ scans (scan_singular fuel junk) shown v'.
Proof. exact spectrum_FermiZ2. Qed.
Print Assumptions C30_spectra_FermiZ2.
Theorem C30_spectra_FermiU1 : forall (R : Type) (RT : ScalarText R) (junk : R) (v : list (fermi16 * Z * list R)), msorted v -> (forall k l, In (k, l) v -> fits_int (snd k)) ->
  (forall k l x, In (k, l) v -> In x l -> readable x) ->
  exists shown, show_singular console_yellow console_origin v = Ok shown /\
  forall fuel, length shown <= fuel -> exists v', spectra_alike v v' /\ scans (scan_singular fuel junk) shown v'.
Proof. exact spectrum_FermiU1. Qed.
Print Assumptions C30_spectra_FermiU1.

Example C30_example_text : show_tensor console_yellow console_origin ex_text ex_Z2 = Ok (lit "{" ++ console_green ++ lit "names" ++ console_origin ++ lit ":[right,left]," ++
  console_green ++ lit "edges" ++ console_origin ++ lit ":[{0:1,1:2},{0:2,1:1}]," ++ console_green ++ lit "blocks" ++ console_origin ++ lit ":{" ++
  console_yellow ++ lit "[0,0]" ++ console_origin ++ lit ":[1,2]," ++ console_yellow ++ lit "[1,1]" ++ console_origin ++ lit ":[3,4]}}").
Proof. vm_compute. reflexivity. Qed.
Example C30_example_hangs : match show_tensor console_yellow console_origin ex_text ex_Z2 with Ok shown => scan_tensor 1000 0%Z ex_intern (ahead shown) = OutOfFuel | _ => False end.
Proof. vm_compute. reflexivity. Qed.
Example C30_example_uncoloured : match show_tensor [] [] ex_text ex_Z2 with
  | Ok shown => scan_tensor (length shown) 0%Z ex_intern (ahead (shown ++ lit "...")) = Ok (ex_Z2, ahead (lit "..."))
  | _ => False end.
Proof. vm_compute. reflexivity. Qed.
Definition ex_pairs : tensor (fermi16 * Z) Z := range_tensor ex_names [mkEdge true [((to_fermi (-1), 3%Z), 2)]; mkEdge false [((to_fermi 1, (-3)%Z), 1)]].
Example C30_example_pairs : t_names ex_pairs <> [] /\ wf_tensor ex_pairs /\ interned ex_text ex_intern (t_names ex_pairs) [lit "right"; lit "left"] /\ readable_names [lit "right"; lit "left"].
Proof.
  split; [vm_compute; discriminate|]. split; [apply range_wf; vm_compute; reflexivity|].
  split; [split; vm_compute; reflexivity|]. apply readable_namesb_ok; vm_compute; reflexivity.
Qed.
Example C30_example_pair_key : scan_list 2 scan_charge (ahead (console_yellow ++ lit "[(1,-3),(-1,3)]" ++ console_origin)) = Ok ([(to_fermi 1, (-3)%Z); (to_fermi (-1), 3%Z)], ahead console_origin).
Proof. reflexivity. Qed.
Example C30_example_spectrum : match show_singular console_yellow console_origin [(false, [5%Z; 3%Z]); (true, [4%Z])] with
  | Ok shown => shown = lit "{" ++ console_yellow ++ lit "0" ++ console_origin ++ lit ":[5,3]," ++ console_yellow ++ lit "1" ++ console_origin ++ lit ":[4]}" /\
      scan_singular 1000 0%Z (ahead shown) = (OutOfFuel : res (list (bool * list Z) * input))
  | _ => False end.
Proof. split; vm_compute; reflexivity. Qed.
Example C30_example_spectrum_pairs : match show_singular console_yellow console_origin [((to_fermi 1, true), [5%Z; 3%Z])] with
  | Ok shown => scan_singular 1000 0%Z (ahead shown) = Ok ([((to_fermi 1, true), [5%Z; 3%Z])], ahead []) | _ => False end.
Proof. reflexivity. Qed.
