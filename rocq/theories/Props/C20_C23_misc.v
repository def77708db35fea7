(** C20: conjugation.  C21: multiplication by a spectrum.  C22, C23: identity. *)
From Coq Require Import String List Bool Arith ZArith Permutation Ascii.
From Verif Require Import Base.Outcome Base.SMap Model.Symmetry Model.Edge Model.Core Model.EdgeOperator Model.Elementwise Model.Misc
  Spec.Blocks Spec.Sign Spec.Relabel Spec.Values Spec.Conjugate Spec.Spectrum Spec.Pairing Proof.SymmetryFacts Proof.CoreFacts Proof.ElemFacts Proof.ConstructFacts
  Proof.ConjugateFacts Proof.MultipleFacts Proof.IdentityFacts Proof.ScalarZ Proof.ExTensors.
Import ListNotations.

(** ** C20.  [negated pos]: pos with all charges negated.  [real]: whether the scalar type is real (then elements are not conjugated). *)
Theorem C20_conjugate :
  forall (S R : Type) (SS : Sym S) (SL : SymLaws S) (RR : Scalar R) (E : @env R) real (t : tensor S R),
  (is_nosym = true -> is_fermi = false) -> wf_tensor t ->
  exists r, conjugate E real t = Ok r /\ wf_tensor r /\ t_names r = t_names t /\
    Forall2 (fun e e' => earrow e' = (if is_fermi then negb (earrow e) else earrow e) /\ emap e' = cmap (emap e)) (t_edges t) (t_edges r) /\
    forall pos pt, assigns pos (t_names t) pt -> valid_pt (t_core t) pt -> exists v, const_at t pos = Ok v /\
      const_at r (negated pos) = Ok (signed ropp (exchanged_odd (leg_odd pos) (t_names t) (rev (t_names t))) (conj_value real v)).
Proof. exact @conjugate_at. Qed.
Print Assumptions C20_conjugate.
(** the legs: arrows flipped, charges negated *)
Theorem C20_conjugate_legs :
  forall (S R : Type) (SS : Sym S) (SL : SymLaws S) (RR : Scalar R) (E : @env R) real (t r : tensor S R),
  (is_nosym = true -> is_fermi = false) -> wf_tensor t -> conjugate E real t = Ok r ->
  t_names r = t_names t /\
  Forall2 (fun e e' => (is_fermi = true -> earrow e' = negb (earrow e)) /\ forall s d, In (s, d) (emap e') <-> In (sneg s, d) (emap e)) (t_edges t) (t_edges r).
Proof. exact @conjugate_legs. Qed.
Print Assumptions C20_conjugate_legs.
Theorem C20_involution :
  forall (S R : Type) (SS : Sym S) (SL : SymLaws S) (RR : Scalar R) (E E' : @env R) real (t : tensor S R), (is_nosym = true -> is_fermi = false) ->
  (forall x : R, ropp (ropp x) = x) -> (forall x : R, rconj (rconj x) = x) -> (forall x : R, rconj (ropp x) = ropp (rconj x)) -> wf_tensor t ->
  bind (conjugate E real t) (conjugate E' real) = Ok t.
Proof. exact @conjugate_twice. Qed.
Print Assumptions C20_involution.

(** a fermionic matrix with two odd legs: the sign appears *)
Example C20_example :
  let t := range_tensor [1; 2; 3] [mkEdge false [(to_fermi (-1), 2)]; mkEdge true [(to_fermi 0, 1); (to_fermi 1, 2)]; mkEdge false [(to_fermi 0, 2); (to_fermi 1, 1)]] in
  wf_tensor t /\ let pos := [(1, (to_fermi (-1), 1)); (2, (to_fermi 1, 0)); (3, (to_fermi 0, 1))] in
  const_at t pos = Ok 8%Z /\ bind (conjugate exE false t) (fun r => const_at r (negated pos)) = Ok (-8)%Z.
Proof. split; [now apply range_wf|]. repeat split; vm_compute; reflexivity. Qed.

(** ** C21.  [fits]: the spectrum has a vector of the right length for every charge of the leg *)
Theorem C21_multiple :
  forall (S R : Type) (SS : Sym S) (SL : SymLaws S) (RR : Scalar R) (E : @env R) (t : tensor S R) spectrum n c dd division,
  wf_tensor t -> In n (t_names t) -> dir_of c = Some dd -> fits t spectrum n dd ->
  exists r, multiple E t spectrum n c division = Ok r /\ wf_tensor r /\ t_names r = t_names t /\ t_edges r = t_edges t /\
    forall pos pt, assigns pos (t_names t) pt -> valid_pt (t_core t) pt -> exists x vec v, const_at t pos = Ok x /\
      mfind (turn dd (fst (coord pos n))) spectrum = Some vec /\ nth_error vec (snd (coord pos n)) = Some v /\
      const_at r pos = Ok (rmul x (weight division v)).
Proof. exact @multiple_at. Qed.
Print Assumptions C21_multiple.
(** division undoes multiplication when every entry has an exact inverse *)
Theorem C21_undo :
  forall (S R : Type) (SS : Sym S) (SL : SymLaws S) (RR : Scalar R) (E E' : @env R) (t : tensor S R) spectrum n c dd,
  wf_tensor t -> In n (t_names t) -> dir_of c = Some dd -> fits t spectrum n dd ->
  (forall s vec x y, In (s, vec) spectrum -> In x vec -> rmul (rmul y x) (rdiv rone x) = y) ->
  bind (multiple E t spectrum n c false) (fun r => multiple E' r spectrum n c true) = Ok t.
Proof. exact @multiple_undo. Qed.
Print Assumptions C21_undo.
Theorem C21_bad_direction :
  forall (S R : Type) (SS : Sym S) (RR : Scalar R) (E : @env R) (t : tensor S R) spectrum n c division, dir_of c = None ->
  multiple E t spectrum n c division = tat_error "Direction invalid in multiple".
Proof. exact @multiple_bad_direction. Qed.
Print Assumptions C21_bad_direction.
(** a charge of the leg without a vector of the right length: an error *)
Theorem C21_misfit :
  forall (S R : Type) (SS : Sym S) (SL : SymLaws S) (RR : Scalar R) (E : @env R) (t : tensor S R) spectrum n c dd division e s d,
  wf_tensor t -> dir_of c = Some dd ->
  In (n, e) (combine (t_names t) (t_edges t)) -> In (s, d) (emap e) -> (forall vec, mfind (turn dd s) spectrum = Some vec -> length vec <> d) ->
  exists ex, multiple E t spectrum n c division = Throw ex.
Proof. exact @multiple_misfit. Qed.
Print Assumptions C21_misfit.
(** a name the tensor does not have: the tensor is returned *)
Theorem C21_missing_name :
  forall (S R : Type) (SS : Sym S) (RR : Scalar R) (E : @env R) (t : tensor S R) spectrum n c dd division,
  wf_tensor t -> dir_of c = Some dd -> ~ In n (t_names t) -> multiple E t spectrum n c division = Ok t.
Proof. exact @multiple_missing_name. Qed.
Print Assumptions C21_missing_name.

(** a U1 tensor of rank 3, its middle leg multiplied from the v side: charges of the spectrum are negated *)
Definition ex_m : tensor Z Z := range_tensor [1; 2; 3] [mkEdge false [(0%Z, 1); (1%Z, 2)]; mkEdge false [((-1)%Z, 2); (0%Z, 1)]; mkEdge false [(0%Z, 2)]].
Definition ex_s : list (Z * list Z) := [(0%Z, [1%Z]); (1%Z, [-1; 1]%Z)].
Example C21_example : wf_tensor ex_m /\ fits ex_m ex_s 2 true /\ (forall s vec x y, In (s, vec) ex_s -> In x vec -> (y * x * (1 / x))%Z = y) /\
  let pos := [(1, (1%Z, 1)); (2, ((-1)%Z, 0)); (3, (0%Z, 1))] in
  const_at ex_m pos = Ok 8%Z /\ bind (multiple exE ex_m ex_s 2 "V" false) (fun r => const_at r pos) = Ok (-8)%Z /\
  (exists m, multiple exE ex_m ex_s 2 "u" false = Throw m) /\ multiple exE ex_m ex_s 2 "w" false = tat_error "Direction invalid in multiple".
Proof.
  split; [now apply range_wf|]. split; [|split].
  - intros e s d He Hs. assert (Hl : combine (t_names ex_m) (t_edges ex_m) = [(1, mkEdge false [(0%Z, 1); (1%Z, 2)]); (2, mkEdge false [((-1)%Z, 2); (0%Z, 1)]); (3, mkEdge false [(0%Z, 2)])]) by reflexivity.
    rewrite Hl in He. destruct He as [He|[He|[He|[]]]]; try discriminate. injection He as <-. destruct Hs as [Hs|[Hs|[]]]; injection Hs as <- <-; eexists; split; reflexivity.
  - intros s vec x y [H|[H|[]]] Hx; injection H as <- <-; destruct Hx as [<-|Hx]; try (destruct Hx as [<-|[]]); try (destruct Hx); vm_compute (1 / _)%Z; rewrite ?Z.mul_1_r; auto.
    change (-1 * (1 / -1))%Z with 1%Z. rewrite <- Z.mul_assoc. apply Z.mul_1_r.
  - split; [reflexivity|]. split; [vm_compute; reflexivity|]. split; [eexists; vm_compute; reflexivity|reflexivity].
Qed.

(** ** C22.  [equal_indices pos pairs]: the two indices of every pair agree *)
Theorem C22_identity :
  forall (S R : Type) (SS : Sym S) (SL : SymLaws S) (RR : Scalar R), (forall s : S, s = szero) ->
  forall (E : @env R) (t : tensor S R) pairs, wf_tensor t -> pairs_up pairs (t_names t) -> t_names t <> [] ->
  (forall a b ea eb, In (a, b) pairs -> In (a, ea) (combine (t_names t) (t_edges t)) -> In (b, eb) (combine (t_names t) (t_edges t)) ->
     emap ea = emap eb /\ forall s d, In (s, d) (emap ea) -> 0 < d) ->
  exists r, identity E t pairs = Ok r /\ wf_tensor r /\ t_names r = t_names t /\ t_edges r = t_edges t /\
    forall pos pt, assigns pos (t_names t) pt -> valid_pt (t_core t) pt -> const_at r pos = Ok (if equal_indices pos pairs then rone else rzero).
Proof. exact @identity_plain. Qed.
Print Assumptions C22_identity.
(** rank 4, interleaved pairs *)
Definition ex_p : tensor unit Z := range_tensor [1; 2; 3; 4] [mkEdge false [(tt, 2)]; mkEdge false [(tt, 3)]; mkEdge false [(tt, 2)]; mkEdge false [(tt, 3)]].
Example C22_example : wf_tensor ex_p /\ pairs_up [(4, 2); (1, 3)] (t_names ex_p) /\ t_names ex_p <> [] /\
  (forall a b ea eb, In (a, b) [(4, 2); (1, 3)] -> In (a, ea) (combine (t_names ex_p) (t_edges ex_p)) -> In (b, eb) (combine (t_names ex_p) (t_edges ex_p)) ->
     emap ea = emap eb /\ forall s d, In (s, d) (emap ea) -> 0 < d) /\
  bind (identity exE ex_p [(4, 2); (1, 3)]) (fun r => const_at r [(1, (tt, 1)); (2, (tt, 2)); (3, (tt, 1)); (4, (tt, 2))]) = Ok 1%Z /\
  bind (identity exE ex_p [(4, 2); (1, 3)]) (fun r => const_at r [(1, (tt, 1)); (2, (tt, 2)); (3, (tt, 0)); (4, (tt, 2))]) = Ok 0%Z.
Proof.
  split; [now apply range_wf|]. split; [|split; [discriminate|split; [|split; vm_compute; reflexivity]]].
  - unfold pairs_up. change (t_names ex_p) with [1; 2; 3; 4]. cbn. apply Permutation_sym. apply (Permutation_cons_app [4; 2] [3]). cbn. apply (Permutation_cons_app [4] [3]). cbn. apply perm_swap.
  - intros a b ea eb Hp Ha Hb. assert (Hl : combine (t_names ex_p) (t_edges ex_p) = [(1, mkEdge false [(tt, 2)]); (2, mkEdge false [(tt, 3)]); (3, mkEdge false [(tt, 2)]); (4, mkEdge false [(tt, 3)])]) by reflexivity.
    rewrite Hl in Ha, Hb. destruct Hp as [Hp|[Hp|[]]]; injection Hp as <- <-; destruct Ha as [Ha|[Ha|[Ha|[Ha|[]]]]]; try discriminate Ha; destruct Hb as [Hb|[Hb|[Hb|[Hb|[]]]]]; try discriminate Hb;
      injection Ha as <-; injection Hb as <-; (split; [reflexivity|]); intros s d [H|[]]; injection H as _ <-; auto with arith.
Qed.

(** ** C23.  Full statement, false of the code: [identity] ignores the charges, so in a tensor of rank 4 blocks whose pairs do
    not have opposite charges also get ones. *)
Definition C23_claim : Prop :=
  forall (E : @env Z) (t : tensor Z Z) pairs, wf_tensor t -> pairs_up pairs (t_names t) -> t_names t <> [] ->
  (forall a b ea eb s d, In (a, b) pairs -> In (a, ea) (combine (t_names t) (t_edges t)) -> In (b, eb) (combine (t_names t) (t_edges t)) ->
     (In (s, d) (emap ea) -> 0 < d) /\ (In (s, d) (emap ea) <-> In (sneg s, d) (emap eb))) ->
  exists r, identity E t pairs = Ok r /\
    forall pos pt, assigns pos (t_names t) pt -> valid_pt (t_core t) pt ->
      const_at r pos = Ok (if opposite_charges pos pairs && equal_indices pos pairs then rone else rzero).
Theorem C23_identity_symmetric_refuted : ~ C23_claim.
Proof.
  intro C. set (ea := mkEdge false [(0%Z, 1); (1%Z, 1)] : edge Z). set (eb := mkEdge false [((-1)%Z, 1); (0%Z, 1)] : edge Z).
  set (t := range_tensor [1; 2; 3; 4] [ea; eb; ea; eb]). destruct (C exE t [(1, 2); (3, 4)]) as [r [Hr H]].
  - now apply range_wf.
  - apply Permutation_refl.
  - discriminate.
  - assert (Hl : combine (t_names t) (t_edges t) = [(1, ea); (2, eb); (3, ea); (4, eb)]) by reflexivity. rewrite Hl. intros a b e1 e2 s d Hp Ha Hb.
    assert (e1 = ea /\ e2 = eb) as [-> ->]. { destruct Hp as [Hp|[Hp|[]]]; injection Hp as <- <-; destruct Ha as [Ha|[Ha|[Ha|[Ha|[]]]]]; try discriminate Ha; destruct Hb as [Hb|[Hb|[Hb|[Hb|[]]]]]; try discriminate Hb; split; congruence. }
    cbn [emap ea eb]. split; [intros [Hs|[Hs|[]]]; injection Hs as _ <-; auto|]. split.
    + intros [Hs|[Hs|[]]]; injection Hs as <- <-; [right; left|left]; reflexivity.
    + intros [Hs|[Hs|[]]]; injection Hs as Hs <-; [right; left|left; f_equal]; rewrite <- (Z.opp_involutive s); cbn in Hs; rewrite <- Hs; reflexivity.
  - specialize (H [(1, (1%Z, 0)); (2, (0%Z, 0)); (3, (0%Z, 0)); (4, ((-1)%Z, 0))] [(1%Z, 0); (0%Z, 0); (0%Z, 0); ((-1)%Z, 0)] eq_refl).
    assert (V : valid_pt (t_core t) [(1%Z, 0); (0%Z, 0); (0%Z, 0); ((-1)%Z, 0)]).
    { split; [|reflexivity]. change (maps_of (c_edges (t_core t))) with [emap ea; emap eb; emap ea; emap eb].
      repeat (econstructor; [cbn; eauto|auto|]). constructor. }
    specialize (H V). vm_compute in Hr. injection Hr as <-. vm_compute in H. discriminate.
Qed.
Print Assumptions C23_identity_symmetric_refuted.
(** what holds: tensors in which every element has opposite charges on each pair, in particular all matrices.
    Missing for the full claim: tensors of rank 4 and more with other blocks (see the refutation). *)
Theorem C23_identity_symmetric_partial :
  forall (S R : Type) (SS : Sym S) (SL : SymLaws S) (RR : Scalar R) (E : @env R) (t : tensor S R) pairs,
  wf_tensor t -> pairs_up pairs (t_names t) -> t_names t <> [] ->
  (forall a b ea eb s d, In (a, b) pairs -> In (a, ea) (combine (t_names t) (t_edges t)) -> In (b, eb) (combine (t_names t) (t_edges t)) ->
     (In (s, d) (emap ea) -> 0 < d) /\ (In (s, d) (emap ea) <-> In (sneg s, d) (emap eb))) ->
  (forall pos pt, assigns pos (t_names t) pt -> valid_pt (t_core t) pt -> opposite_charges pos pairs = true) ->
  exists r, identity E t pairs = Ok r /\ wf_tensor r /\ t_names r = t_names t /\ t_edges r = t_edges t /\
    forall pos pt, assigns pos (t_names t) pt -> valid_pt (t_core t) pt ->
      const_at r pos = Ok (if opposite_charges pos pairs && equal_indices pos pairs then rone else rzero).
Proof. exact @identity_opposite. Qed.
Print Assumptions C23_identity_symmetric_partial.
(** matrices meet the last hypothesis *)
Theorem C23_matrix_opposite :
  forall (S R : Type) (SS : Sym S) (SL : SymLaws S) (t : tensor S R) a b, t_names t = [a; b] ->
  forall pos pt, assigns pos (t_names t) pt -> valid_pt (t_core t) pt -> opposite_charges pos [(a, b)] = true.
Proof. exact @matrix_opposite. Qed.
Print Assumptions C23_matrix_opposite.
Example C23_example :
  let t := range_tensor [1; 2] [mkEdge false [(0%Z, 2); (1%Z, 3)]; mkEdge false [((-1)%Z, 3); (0%Z, 2)]] in
  wf_tensor t /\ pairs_up [(1, 2)] (t_names t) /\
  bind (identity exE t [(1, 2)]) (fun r => const_at r [(1, (1%Z, 2)); (2, ((-1)%Z, 2))]) = Ok 1%Z /\
  bind (identity exE t [(1, 2)]) (fun r => const_at r [(1, (1%Z, 2)); (2, ((-1)%Z, 1))]) = Ok 0%Z.
Proof. split; [now apply range_wf|]. split; [apply Permutation_refl|]. split; vm_compute; reflexivity. Qed.
