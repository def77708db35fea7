(** C04: element addresses are a bijection.  C50: out-of-range indices (refuted). *)
From Coq Require Import String List Bool Arith ZArith.
From Verif Require Import Base.Outcome Base.SMap Model.Symmetry Model.Edge Model.Core
  Spec.Blocks Proof.SymmetryFacts Proof.LoopFacts Proof.CoreFacts Proof.ElemFacts Proof.ConstructFacts Proof.AddressFacts.
Import ListNotations.

(** [assigns pos names pt]: pos gives the i-th name the i-th (charge, index) of pt.
    [valid_pt c pt]: every index is below its segment's dimension and the charges add to zero. *)
Theorem C04_address_in_block :
  forall (S R : Type) (SS : Sym S) (SL : SymLaws S) (t : tensor S R) pos pt,
  wf_tensor t -> assigns pos (t_names t) pt -> valid_pt (t_core t) pt ->
  exists off b, get_block_and_offset pos (t_names t) (t_core t) = Ok (map fst pt, off) /\
    In (map fst pt, b) (t_blocks t) /\ off < length b.
Proof. exact @address_valid. Qed.
Print Assumptions C04_address_in_block.

Theorem C04_address_injective :
  forall (S R : Type) (SS : Sym S) (SL : SymLaws S) (t : tensor S R) pos1 pos2 pt1 pt2 a,
  wf_tensor t -> assigns pos1 (t_names t) pt1 -> assigns pos2 (t_names t) pt2 ->
  in_range (map emap (t_edges t)) pt1 -> in_range (map emap (t_edges t)) pt2 ->
  get_block_and_offset pos1 (t_names t) (t_core t) = Ok a ->
  get_block_and_offset pos2 (t_names t) (t_core t) = Ok a -> pt1 = pt2.
Proof. exact @address_injective. Qed.
Print Assumptions C04_address_injective.

Theorem C04_address_surjective :
  forall (S R : Type) (SS : Sym S) (SL : SymLaws S) (t : tensor S R) key b off,
  wf_tensor t -> In (key, b) (t_blocks t) -> off < length b ->
  exists pt, valid_pt (t_core t) pt /\
    forall pos, assigns pos (t_names t) pt -> get_block_and_offset pos (t_names t) (t_core t) = Ok (key, off).
Proof. exact @address_surjective. Qed.
Print Assumptions C04_address_surjective.

Theorem C04_write_then_read :
  forall (S R : Type) (SS : Sym S) (SL : SymLaws S) (t : tensor S R) pos pt v,
  wf_tensor t -> assigns pos (t_names t) pt -> valid_pt (t_core t) pt ->
  exists t', set_at t pos v = Ok t' /\ const_at t' pos = Ok v /\ t_names t' = t_names t /\ t_edges t' = t_edges t /\
    forall pos' pt', assigns pos' (t_names t) pt' -> valid_pt (t_core t) pt' -> pt' <> pt ->
      const_at t' pos' = const_at t pos'.
Proof. exact @write_read. Qed.
Print Assumptions C04_write_then_read.

(** [elem] (used by the later theorems to speak about elements) is what reading returns; reading in-range
    coordinates whose charges do not add to zero throws. *)
Theorem C04_read_is_elem :
  forall (S R : Type) (SS : Sym S) (SL : SymLaws S) (t : tensor S R) pos pt,
  wf_tensor t -> assigns pos (t_names t) pt -> valid_pt (t_core t) pt ->
  exists v, elem (t_core t) pt = Some v /\ const_at t pos = Ok v.
Proof. exact @const_at_elem. Qed.
Print Assumptions C04_read_is_elem.

Theorem C04_read_forbidden_throws :
  forall (S R : Type) (SS : Sym S) (SL : SymLaws S) (t : tensor S R) pos pt,
  wf_tensor t -> assigns pos (t_names t) pt -> in_range (map emap (t_edges t)) pt -> ssum (map fst pt) <> szero ->
  const_at t pos = Throw OutOfRange.
Proof. exact @const_at_forbidden. Qed.
Print Assumptions C04_read_forbidden_throws.

#[local] Instance Z_scalar : Scalar Z := {
  rzero := 0%Z; rone := 1%Z; radd := Z.add; rmul := Z.mul; ropp := Z.opp; rsub := Z.sub; rdiv := Z.div; rconj := fun x => x }.
Definition ex_edges : list (edge Z) := [mkEdge false [((-1)%Z, 2); (0%Z, 2)]; mkEdge false [(0%Z, 3); (1%Z, 2)]].
Definition ex_t : tensor Z Z :=
  mkTensor [4; 2] (mkCore ex_edges [([-1; 1], [10; 11; 12; 13]); ([0; 0], [20; 21; 22; 23; 24; 25])]%Z).
Example C04_example : 
  make_tensor 0%Z [4; 2] ex_edges false =
    Ok (mkTensor [4; 2] (mkCore ex_edges [([-1; 1], [0;0;0;0]); ([0; 0], [0;0;0;0;0;0])]%Z)) /\
  const_at ex_t [(2, (1%Z, 1)); (4, ((-1)%Z, 0))] = Ok 11%Z /\
  const_at ex_t [(2, (0%Z, 1)); (4, (0%Z, 1))] = Ok 24%Z.
Proof. vm_compute. auto. Qed.

(** ** C50.  Full statement (false): an index not below its dimension raises an error. *)
Theorem C50_out_of_range_refuted :
  exists (t : tensor unit Z) pos pt, wf_tensor t /\ assigns pos (t_names t) pt /\
    ~ in_range (map emap (t_edges t)) pt /\ exists v, const_at t pos = Ok v.
Proof.
  exists (mkTensor [1; 2] (mkCore [mkEdge false [(tt, 2)]; mkEdge false [(tt, 2)]] [([tt; tt], [10; 11; 12; 13]%Z)])),
         [(1, (tt, 0)); (2, (tt, 3))], [(tt, 0); (tt, 3)].
  split; [|split; [reflexivity|split]].
  - constructor; [constructor|..]; simpl.
    + repeat constructor.
    + reflexivity.
    + intros [|[|i]] e [] E _; simpl in E; try (destruct i; discriminate);
        (exists [tt; tt]; split; [now left|reflexivity]).
    + repeat constructor; simpl; intuition discriminate.
    + reflexivity.
  - simpl. intro H. inversion H as [|? ? ? ? ? ? ? ? H2]; subst. inversion H2 as [|? ? ? ? ? ? Hin Hlt]; subst.
    destruct Hin as [E|[]]. injection E as <-. revert Hlt. apply Nat.lt_asymm. repeat constructor.
  - exists 13%Z. reflexivity.
Qed.
Print Assumptions C50_out_of_range_refuted.

(** What is reported: an unknown charge and a missing name.  Missing from the full statement: the index. *)
Theorem C50_unknown_charge_reported_partial :
  forall (S R : Type) (SS : Sym S) (SL : SymLaws S) (t : tensor S R) pos pt,
  wf_tensor t -> is_nosym = false -> assigns pos (t_names t) pt ->
  (exists k e s i, nth_error (t_edges t) k = Some e /\ nth_error pt k = Some (s, i) /\ ~ In s (map fst (emap e))) ->
  const_at t pos = Throw OutOfRange.
Proof. exact @unknown_charge_throws. Qed.
Print Assumptions C50_unknown_charge_reported_partial.

Theorem C50_missing_name_reported_partial :
  forall (S R : Type) (SS : Sym S) (SL : SymLaws S) (t : tensor S R) (pos : position),
  wf_tensor t ->
  (forall n s i, mfind n pos = Some (s, i) -> forall k e, nth_error (t_names t) k = Some n ->
      nth_error (t_edges t) k = Some e -> exists d, In (s, d) (emap e)) ->
  (exists n, In n (t_names t) /\ mfind n pos = None) ->
  exists msg, const_at t pos = Throw (RuntimeError msg).
Proof. exact @missing_name_throws. Qed.
Print Assumptions C50_missing_name_reported_partial.
Example C50_example :
  const_at ex_t [(2, (3%Z, 1)); (4, ((-1)%Z, 0))] = Throw OutOfRange /\
  (exists m, const_at ex_t [(2, (1%Z, 1))] = Throw (RuntimeError m)).
Proof. split; [reflexivity|]. eexists. reflexivity. Qed.
