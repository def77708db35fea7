(** C02: block structure of a new tensor.  C03: pruning and idempotence. *)
From Coq Require Import String List Bool Arith Sorted ZArith.
From Verif Require Import Base.Outcome Base.SMap Model.Symmetry Model.Edge Model.Core
  Spec.Blocks Proof.SymmetryFacts Proof.LoopFacts Proof.CoreFacts Proof.ElemFacts Proof.ConstructFacts Proof.AddressFacts.
Import ListNotations.

(** [sorted_maps]: the edges' charge maps are std::maps.  [junk] is whatever fresh memory contains. *)
Theorem C02_block_structure :
  forall (S R : Type) (SS : Sym S) (SL : SymLaws S) (junk : R) names (es : list (edge S)) ar,
  sorted_maps (map emap es) -> NoDup names -> length names = length es ->
  exists t, make_tensor junk names es ar = Ok t /\ t_names t = names /\
    StronglySorted (fun a b => ltb a b = true) (map fst (t_blocks t)) /\
    forall key b, In (key, b) (t_blocks t) <->
      exists n, choice (map emap es) key n /\ ssum key = szero /\ b = repeat junk n.
Proof. exact @construct_blocks. Qed.
Print Assumptions C02_block_structure.

(** A name list of the wrong length or with duplicates is rejected at construction. *)
Theorem C02_bad_names_rejected :
  forall (S R : Type) (SS : Sym S) (SL : SymLaws S) (junk : R) names (es : list (edge S)) ar,
  sorted_maps (map emap es) -> ~ (NoDup names /\ length names = length es) ->
  exists msg, make_tensor junk names es ar = Throw (RuntimeError msg).
Proof. exact @construct_bad_names. Qed.
Print Assumptions C02_bad_names_rejected.

(** [wf_tensor], the invariant used by all later theorems, says just this. *)
Theorem C02_wellformed_meaning :
  forall (S R : Type) (SS : Sym S) (SL : SymLaws S) (t : tensor S R),
  wf_tensor t <->
    NoDup (t_names t) /\ length (t_names t) = length (t_edges t) /\
    (forall e, In e (t_edges t) -> msorted (emap e)) /\
    msorted (t_blocks t) /\
    (forall key n, (exists b, In (key, b) (t_blocks t) /\ length b = n) <->
                   choice (map emap (t_edges t)) key n /\ ssum key = szero) /\
    (forall i e s, nth_error (t_edges t) i = Some e -> In s (map fst (emap e)) ->
       exists key, In key (map fst (t_blocks t)) /\ nth_error key i = Some s).
Proof. exact @wf_tensor_meaning. Qed.
Print Assumptions C02_wellformed_meaning.

Theorem C02_constructed_wellformed :
  forall (S R : Type) (SS : Sym S) (SL : SymLaws S) (junk : R) names (es : list (edge S)) ar,
  sorted_maps (map emap es) -> NoDup names -> length names = length es ->
  exists t, make_tensor junk names es ar = Ok t /\ wf_tensor t.
Proof.
  exact (fun S R SS SL junk names es ar Hs Hn HL =>
    match make_tensor_ok junk names es ar Hs Hn HL with
    | ex_intro _ t (conj E (conj W _)) => ex_intro _ t (conj E W)
    end).
Qed.
Print Assumptions C02_constructed_wellformed.

Theorem C03_pruning :
  forall (S R : Type) (SS : Sym S) (SL : SymLaws S) (junk : R) names (es : list (edge S)) ar t,
  sorted_maps (map emap es) -> make_tensor junk names es ar = Ok t ->
  length (t_edges t) = length es /\
  forall i e, nth_error es i = Some e -> exists e', nth_error (t_edges t) i = Some e' /\
    msorted (emap e') /\
    earrow e' = earrow (if is_fermi && ar then possible_reverse e else e) /\
    forall s d, In (s, d) (emap e') <-> In (s, d) (emap e) /\ charge_used es i s.
Proof. exact @construct_prunes. Qed.
Print Assumptions C03_pruning.

(** the optional automatic arrow: flipped exactly when the edge has a negative fermion number *)
Theorem C03_auto_reverse : forall (S : Type) (SS : Sym S) (e : edge S),
  emap (possible_reverse e) = emap e /\
  (negative_fermion e -> earrow (possible_reverse e) = negb (earrow e)) /\
  (~ negative_fermion e -> earrow (possible_reverse e) = earrow e).
Proof. exact @possible_reverse_spec. Qed.
Print Assumptions C03_auto_reverse.

Theorem C03_idempotent :
  forall (S R : Type) (SS : Sym S) (SL : SymLaws S) (junk junk' : R) names (es : list (edge S)) ar t,
  sorted_maps (map emap es) -> make_tensor junk names es ar = Ok t ->
  exists t', same_shape junk' t = Ok t' /\ t_names t' = t_names t /\ t_edges t' = t_edges t /\
    map (fun kb => (fst kb, length (snd kb))) (t_blocks t') = map (fun kb => (fst kb, length (snd kb))) (t_blocks t).
Proof. exact @construct_idempotent. Qed.
Print Assumptions C03_idempotent.

(** A concrete U1 case: three edges; charge 5 of the first edge and charge 7 of the last are unused and pruned. *)
#[local] Instance Z_scalar : Scalar Z := {
  rzero := 0%Z; rone := 1%Z; radd := Z.add; rmul := Z.mul; ropp := Z.opp; rsub := Z.sub; rdiv := Z.div; rconj := fun x => x }.
Definition ex_edges : list (edge Z) :=
  [mkEdge false [((-1)%Z, 2); (0%Z, 1); (5%Z, 3)]; mkEdge false [(0%Z, 2); (1%Z, 3)]; mkEdge false [(0%Z, 2); (7%Z, 1)]].
Example C02_example_hypotheses : sorted_maps (map emap ex_edges) /\ NoDup [1; 2; 3].
Proof.
  split.
  - repeat constructor.
  - repeat constructor; simpl; intuition discriminate.
Qed.
Example C02_example :
  match make_tensor 9%Z [1; 2; 3] ex_edges false with
  | Ok t => map (fun kb => (fst kb, length (snd kb))) (t_blocks t) = [([-1; 1; 0]%Z, 12); ([0; 0; 0]%Z, 4)] /\
            map emap (t_edges t) = [[((-1)%Z, 2); (0%Z, 1)]; [(0%Z, 2); (1%Z, 3)]; [(0%Z, 2)]]
  | _ => False
  end.
Proof. vm_compute. split; reflexivity. Qed.
