(** C07: bosonic transposition.  C08: fermionic sign of a transposition.  C09: transpositions compose.
    C10: bad name lists (refuted).  C46: renaming. *)
From Coq Require Import String List Bool Arith ZArith Permutation.
From Verif Require Import Base.Outcome Base.SMap Model.Symmetry Model.Edge Model.Core Model.EdgeOperator
  Spec.Blocks Spec.Sign Proof.SymmetryFacts Proof.CoreFacts Proof.ElemFacts Proof.ConstructFacts Proof.SignFacts
  Proof.TransposeNames Proof.RenameFacts Proof.ScalarZ Proof.ExTensors.
Import ListNotations.

(** ** C07 *)
Theorem C07_transpose_bosonic :
  forall (S R : Type) (SS : Sym S) (SL : SymLaws S) (RR : Scalar R) (E : env) (t : tensor S R) target,
  is_fermi = false -> wf_tensor t -> Permutation (t_names t) target ->
  exists r, transpose E t target = Ok r /\ wf_tensor r /\ t_names r = target /\
    (forall n e, In (n, e) (combine (t_names r) (t_edges r)) <-> In (n, e) (combine (t_names t) (t_edges t))) /\
    forall pos pt, assigns pos (t_names t) pt -> in_range (map emap (t_edges t)) pt -> const_at r pos = const_at t pos.
Proof. exact @transpose_bosonic. Qed.
Print Assumptions C07_transpose_bosonic.

(** a U(1) tensor of rank three with several charges per edge *)
Definition ex_u1 : tensor Z Z := range_tensor [1; 2; 3]
  [mkEdge false [((-1)%Z, 1); (0%Z, 2)]; mkEdge false [(0%Z, 2); (1%Z, 1)]; mkEdge false [((-1)%Z, 2); (0%Z, 1); (1%Z, 3)]].
Example C07_example : wf_tensor ex_u1 /\
  exists r, transpose exE ex_u1 [3; 1; 2] = Ok r /\ t_names r = [3; 1; 2] /\ length (t_blocks r) = 4 /\
    const_at r [(1, (0%Z, 1)); (2, (1%Z, 0)); (3, ((-1)%Z, 1))] = Ok 15%Z /\
    const_at ex_u1 [(1, (0%Z, 1)); (2, (1%Z, 0)); (3, ((-1)%Z, 1))] = Ok 15%Z.
Proof. split; [now apply range_wf|]. eexists. vm_compute. auto. Qed.

(** ** C08.  [leg_odd pos n]: the charge pos gives to n is odd; [exchanged_odd odd l1 l2]: number of pairs of odd
    legs in one order in l1 and in the opposite order in l2; [signed opp n v] = (-1)^n v. *)
Theorem C08_transpose_sign :
  forall (S R : Type) (SS : Sym S) (SL : SymLaws S) (RR : Scalar R) (E : env) (t : tensor S R) target,
  wf_tensor t -> Permutation (t_names t) target ->
  exists r, transpose E t target = Ok r /\ wf_tensor r /\ t_names r = target /\
    (forall n e, In (n, e) (combine (t_names r) (t_edges r)) <-> In (n, e) (combine (t_names t) (t_edges t))) /\
    forall pos pt, assigns pos (t_names t) pt -> valid_pt (t_core t) pt ->
      exists v, const_at t pos = Ok v /\
        const_at r pos = Ok (signed ropp (exchanged_odd (leg_odd pos) (t_names t) target) v).
Proof. exact @transpose_named. Qed.
Print Assumptions C08_transpose_sign.

Theorem C08_sign_multiplicative :
  forall odd l1 l2 l3, NoDup l1 -> Permutation l1 l2 -> Permutation l2 l3 ->
  Nat.odd (exchanged_odd odd l1 l3) = xorb (Nat.odd (exchanged_odd odd l1 l2)) (Nat.odd (exchanged_odd odd l2 l3)).
Proof. exact exchanged_compose. Qed.
Print Assumptions C08_sign_multiplicative.

(** four odd legs; three of six pairs are exchanged by [1;2;3;4] -> [4;1;2;3], so the sign is minus *)
Definition ex_fermi : tensor fermi16 Z := range_tensor [1; 2; 3; 4]
  (let e := mkEdge false [(to_fermi (-1), 1); (to_fermi 0, 1); (to_fermi 1, 2)] in [e; e; e; e]).
Example C08_example : wf_tensor ex_fermi /\
  let pos := [(1, (to_fermi 1, 1)); (2, (to_fermi (-1), 0)); (3, (to_fermi 1, 1)); (4, (to_fermi (-1), 0))] in
  exchanged_odd (leg_odd pos) [1; 2; 3; 4] [4; 1; 2; 3] = 3 /\
  const_at ex_fermi pos = Ok 41%Z /\ bind (transpose exE ex_fermi [4; 1; 2; 3]) (fun r => const_at r pos) = Ok (- 41)%Z.
Proof. split; [now apply range_wf|]. split; [reflexivity|]. split; vm_compute; reflexivity. Qed.

(** ** C09 *)
Theorem C09_transposes_compose :
  forall (S R : Type) (SS : Sym S) (SL : SymLaws S) (RR : Scalar R) (E E' E'' : env) (t : tensor S R) n1 n2,
  (forall v : R, ropp (ropp v) = v) -> wf_tensor t -> Permutation (t_names t) n1 -> Permutation (t_names t) n2 ->
  exists r, bind (transpose E t n1) (fun r1 => transpose E' r1 n2) = Ok r /\ transpose E'' t n2 = Ok r.
Proof. exact @transpose_transpose. Qed.
Print Assumptions C09_transposes_compose.

Theorem C09_transpose_back :
  forall (S R : Type) (SS : Sym S) (SL : SymLaws S) (RR : Scalar R) (E E' : env) (t : tensor S R) n1,
  (forall v : R, ropp (ropp v) = v) -> wf_tensor t -> Permutation (t_names t) n1 ->
  bind (transpose E t n1) (fun r1 => transpose E' r1 (t_names t)) = Ok t.
Proof. exact @transpose_back. Qed.
Print Assumptions C09_transpose_back.

Definition data (t : tensor fermi16 Z) := Ok (t_names t, map (fun kb => (map fermi_z (fst kb), snd kb)) (t_blocks t)).
Example C09_example :
  bind (transpose exE ex_fermi [2; 4; 1; 3]) data <> data ex_fermi /\
  bind (bind (transpose exE ex_fermi [4; 1; 2; 3]) (fun r => transpose exE r [2; 4; 1; 3])) data
    = bind (transpose exE ex_fermi [2; 4; 1; 3]) data /\
  bind (bind (transpose exE ex_fermi [4; 1; 2; 3]) (fun r => transpose exE r [1; 2; 3; 4])) data = data ex_fermi.
Proof. split; [vm_compute; discriminate|]. split; vm_compute; reflexivity. Qed.

(** ** C10.  Full statement (false): whenever target is not a permutation of the names, transpose raises an error. *)
Theorem C10_bad_names_refuted :
  exists (t : tensor unit Z) target, wf_tensor t /\ ~ Permutation (t_names t) target /\
    (exists n, In n target /\ ~ In n (t_names t)) /\
    exists r, transpose exE t target = Ok r /\ t_names r = target /\ t_blocks r = t_blocks t.
Proof.
  exists (range_tensor [1; 2] [mkEdge false [(tt, 2)]; mkEdge false [(tt, 3)]]), [7; 2].
  split; [now apply range_wf|]. split.
  - intro H. apply Permutation_sym in H. pose proof (Permutation_in 7 H (or_introl eq_refl)) as [X|[X|[]]]; discriminate.
  - split; [exists 7; split; [now left|]; intros [X|[X|[]]]; discriminate|]. eexists. vm_compute. auto.
Qed.
Print Assumptions C10_bad_names_refuted.
(** the accepted list may even repeat a name, giving a tensor with two edges of the same name *)
Theorem C10_duplicate_names_refuted :
  exists (t : tensor unit Z) target, wf_tensor t /\ ~ NoDup target /\
    exists r, transpose exE t target = Ok r /\ t_names r = target.
Proof.
  exists (range_tensor [1; 2] [mkEdge false [(tt, 2)]; mkEdge false [(tt, 3)]]), [2; 2].
  split; [now apply range_wf|]. split.
  - intro H. inversion H as [|? ? H1 H2]; subst. apply H1. now left.
  - eexists. vm_compute. auto.
Qed.
Print Assumptions C10_duplicate_names_refuted.

(** What is rejected: every list that is not a permutation of the names, except the lists that differ from the names
    in their first entry only (the missing part of the full statement). *)
Theorem C10_bad_names_rejected_partial :
  forall (S R : Type) (SS : Sym S) (SL : SymLaws S) (RR : Scalar R) (E : env) (t : tensor S R) target,
  wf_tensor t -> ~ Permutation (t_names t) target ->
  (forall x y l, t_names t = x :: l -> target <> y :: l) ->
  exists msg, transpose E t target = Throw (RuntimeError msg).
Proof. exact @transpose_bad_list. Qed.
Print Assumptions C10_bad_names_rejected_partial.
Example C10_example :
  (exists m, transpose exE ex_u1 [1; 2; 4] = Throw (RuntimeError m)) /\
  (exists m, transpose exE ex_u1 [1; 2] = Throw (RuntimeError m)) /\
  (exists m, transpose exE ex_u1 [1; 3; 3] = Throw (RuntimeError m)).
Proof. split; [|split]; eexists; vm_compute; reflexivity. Qed.

(** ** C46 *)
Theorem C46_rename_keeps_data :
  forall (S R : Type) (t : tensor S R) dict,
  t_edges (edge_rename t dict) = t_edges t /\ t_blocks (edge_rename t dict) = t_blocks t /\
  length (t_names (edge_rename t dict)) = length (t_names t) /\
  forall i n, nth_error (t_names t) i = Some n ->
    nth_error (t_names (edge_rename t dict)) i = Some (match mfind n dict with Some n' => n' | None => n end).
Proof. exact @edge_rename_keeps. Qed.
Print Assumptions C46_rename_keeps_data.

Theorem C46_rename_distinct :
  forall (S R : Type) (SS : Sym S) (t : tensor S R) dict, wf_tensor t ->
  (forall x y, In x (t_names t) -> In y (t_names t) -> rename_one dict x = rename_one dict y -> x = y) ->
  wf_tensor (edge_rename t dict).
Proof. exact @edge_rename_wf. Qed.
Print Assumptions C46_rename_distinct.

Theorem C46_rename_read :
  forall (S R : Type) (SS : Sym S) (SL : SymLaws S) (t : tensor S R) dict pos pos' pt, wf_tensor t ->
  (forall x y, In x (t_names t) -> In y (t_names t) -> rename_one dict x = rename_one dict y -> x = y) ->
  assigns pos (t_names t) pt -> assigns pos' (t_names (edge_rename t dict)) pt -> valid_pt (t_core t) pt ->
  const_at (edge_rename t dict) pos' = const_at t pos.
Proof. exact @edge_rename_read. Qed.
Print Assumptions C46_rename_read.
Example C46_example :
  t_names (edge_rename ex_u1 [(1, 3); (3, 1); (9, 2)]) = [3; 2; 1] /\
  const_at (edge_rename ex_u1 [(1, 3); (3, 1)]) [(3, (0%Z, 1)); (2, (1%Z, 0)); (1, ((-1)%Z, 1))] = Ok 15%Z.
Proof. split; vm_compute; reflexivity. Qed.
