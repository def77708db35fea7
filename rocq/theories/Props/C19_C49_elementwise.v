(** C19: element-wise arithmetic.  C49: whole-tensor functions. *)
From Coq Require Import String List Bool Arith ZArith Permutation.
From Verif Require Import Base.Outcome Base.SMap Model.Symmetry Model.Edge Model.Core Model.EdgeOperator Model.Elementwise
  Spec.Blocks Spec.Sign Spec.Relabel Spec.Values Proof.SymmetryFacts Proof.CoreFacts Proof.ElemFacts Proof.ConstructFacts
  Proof.ElementwiseFacts Proof.ScalarOpFacts Proof.WholeFacts Proof.ScalarZ Proof.ExTensors.
Import ListNotations.

(** ** C19.  [common_coordinate t1 t2 pos]: pos gives each leg a charge of t1 or t2 and an index in it, with total charge zero;
    [lacks t pos]: a leg of t has not the charge given to it; [value_or_zero]: the element, or zero if absent. *)
Theorem C19_arithmetic :
  forall (S R : Type) (SS : Sym S) (SL : SymLaws S) (RR : Scalar R) (E : @env R) op (t1 t2 : tensor S R),
  is_fermi = false -> wf_tensor t1 -> wf_tensor t2 -> Permutation (t_names t2) (t_names t1) -> compatible t1 t2 ->
  exists r, scalar_op E op t1 t2 = Ok r /\ wf_tensor r /\ t_names r = t_names t1 /\
    forall pos, common_coordinate t1 t2 pos -> exists v1 v2 w, value_or_zero t1 pos v1 /\ value_or_zero t2 pos v2 /\ const_at r pos = Ok w /\
      ((lacks t1 pos /\ lacks t2 pos -> w = rzero) /\ (~ (lacks t1 pos /\ lacks t2 pos) -> w = op v1 v2)).
Proof. exact @scalar_op_bosonic. Qed.
Print Assumptions C19_arithmetic.

(** the same with the sign of the transposition when the fermionic operand has other leg order; the edges are the unions *)
Theorem C19_arithmetic_signed :
  forall (S R : Type) (SS : Sym S) (SL : SymLaws S) (RR : Scalar R) (E : @env R) op (t1 t2 : tensor S R), wf_tensor t1 -> wf_tensor t2 ->
  Permutation (t_names t2) (t_names t1) -> compatible t1 t2 ->
  exists r, scalar_op E op t1 t2 = Ok r /\ wf_tensor r /\ t_names r = t_names t1 /\
    (forall n e e1, In (n, e) (combine (t_names r) (t_edges r)) -> In (n, e1) (combine (t_names t1) (t_edges t1)) -> earrow e = earrow e1) /\
    (forall n e s d, In (n, e) (combine (t_names r) (t_edges r)) -> In (s, d) (emap e) ->
       exists e', (In (n, e') (combine (t_names t1) (t_edges t1)) \/ In (n, e') (combine (t_names t2) (t_edges t2))) /\ In (s, d) (emap e')) /\
    forall pos, common_coordinate t1 t2 pos -> exists v1 v2 w, value_or_zero t1 pos v1 /\
      signed_value_or_zero (exchanged_odd (leg_odd pos) (t_names t2) (t_names t1)) t2 pos v2 /\
      const_at r pos = Ok w /\
      ((lacks t1 pos /\ lacks t2 pos -> w = rzero) /\ (~ (lacks t1 pos /\ lacks t2 pos) -> w = op v1 v2)).
Proof. exact @scalar_op_at. Qed.
Print Assumptions C19_arithmetic_signed.

Theorem C19_rank_error :
  forall (S R : Type) (SS : Sym S) (RR : Scalar R) (E : @env R) op (t1 t2 : tensor S R), length (t_names t1) <> length (t_names t2) ->
  scalar_op E op t1 t2 = tat_error "Try to do scalar operator on two different rank tensor".
Proof. exact @scalar_op_rank. Qed.
Print Assumptions C19_rank_error.
Theorem C19_dimension_error :
  forall (S R : Type) (SS : Sym S) (SL : SymLaws S) (RR : Scalar R) (E : @env R) op (t1 t2 : tensor S R), wf_tensor t1 -> wf_tensor t2 ->
  Permutation (t_names t2) (t_names t1) -> ~ compatible t1 t2 ->
  scalar_op E op t1 t2 = tat_error "Try to do scalar operator on two tensors which edges not compatible".
Proof. exact @scalar_op_incompatible. Qed.
Print Assumptions C19_dimension_error.

(** with a number: f x = x op y or y op x *)
Theorem C19_number :
  forall (S R : Type) (SS : Sym S) (SL : SymLaws S) (RR : Scalar R) (E : @env R) (f : R -> R) (t : tensor S R), wf_tensor t ->
  exists r, scalar_number E f t = Ok r /\ t_names r = t_names t /\ t_edges r = t_edges t /\
    map fst (t_blocks r) = map fst (t_blocks t) /\ stored r = map f (stored t).
Proof.
  intros S R SS SL RR E f t W. exists (transform f t). split; [now apply scalar_number_transform|]. split; [reflexivity|]. split; [reflexivity|].
  split; apply (transform_stored f t).
Qed.
Print Assumptions C19_number.

(** in place: when it is accepted (equal edges) the resulting tensor is the one of the out-of-place operation *)
Theorem C19_in_place :
  forall (S R : Type) (SS : Sym S) (SL : SymLaws S) (RR : Scalar R) (E E' : @env R) op (t1 t2 : tensor S R), wf_tensor t1 -> wf_tensor t2 ->
  Permutation (t_names t2) (t_names t1) ->
  (forall n e1 e2, In (n, e1) (combine (t_names t1) (t_edges t1)) -> In (n, e2) (combine (t_names t2) (t_edges t2)) ->
     emap e1 = emap e2 /\ (is_fermi = true -> earrow e1 = earrow e2)) ->
  exists r, scalar_inplace E op t1 t2 = Ok r /\ scalar_op E' op t1 t2 = Ok r /\ t_names r = t_names t1 /\ t_edges r = t_edges t1.
Proof. exact @scalar_inplace_same. Qed.
Print Assumptions C19_in_place.

(** two Z2 tensors: the second has another order of legs, and each has a charge the other lacks *)
Definition ex_a : tensor bool Z := range_tensor [1; 2] [mkEdge false [(false, 2)]; mkEdge false [(false, 1); (true, 3)]].
Definition ex_b : tensor bool Z := range_tensor [2; 1] [mkEdge false [(false, 1); (true, 3)]; mkEdge false [(false, 2); (true, 2)]].
Example C19_example : wf_tensor ex_a /\ wf_tensor ex_b /\ Permutation (t_names ex_b) (t_names ex_a) /\ compatible ex_a ex_b /\
  (exists r, scalar_op exE Z.sub ex_a ex_b = Ok r /\
    const_at ex_a [(1, (false, 1)); (2, (false, 0))] = Ok 2%Z /\ const_at ex_b [(1, (false, 1)); (2, (false, 0))] = Ok 2%Z /\
    const_at r [(1, (false, 1)); (2, (false, 0))] = Ok 0%Z /\
    lacks ex_a [(1, (true, 1)); (2, (true, 2))] /\ const_at ex_b [(1, (true, 1)); (2, (true, 2))] = Ok 8%Z /\
    const_at r [(1, (true, 1)); (2, (true, 2))] = Ok (-8)%Z) /\
  common_coordinate ex_a ex_b [(1, (true, 1)); (2, (true, 2))].
Proof.
  assert (Ha : t_edges ex_a = [mkEdge false [(false, 2)]; mkEdge false [(false, 1)]]) by reflexivity.
  split; [now apply range_wf|]. split; [now apply range_wf|]. split; [apply perm_swap|]. split.
  - intros n e1 e2 s d1 d2 H1 H2 H3 H4. rewrite Ha in H1.
    change (combine (t_names ex_b) (t_edges ex_b)) with [(2, mkEdge false [(false, 1); (true, 3)]); (1, mkEdge false [(false, 2); (true, 2)])] in H2.
    change (t_names ex_a) with [1; 2] in H1. cbn [combine] in H1.
    destruct H1 as [H1|[H1|[]]]; injection H1 as <- <-; destruct H2 as [H2|[H2|[]]]; try discriminate; injection H2 as <-;
      destruct H3 as [H3|[]]; injection H3 as <- <-; cbn [emap] in H4; destruct H4 as [H4|[H4|[]]]; congruence.
  - split.
    + eexists. split; [vm_compute; reflexivity|]. split; [vm_compute; reflexivity|]. split; [vm_compute; reflexivity|]. split; [vm_compute; reflexivity|].
      split; [|split; vm_compute; reflexivity]. exists 1, (mkEdge false [(false, 2)]). split; [now left|]. intros [H|[]]. discriminate.
    + split; [|reflexivity]. intros n [<-|[<-|[]]].
      * exists true, 1. split; [reflexivity|]. exists (mkEdge false [(false, 2); (true, 2)]), 2. split; [right; right; now left|]. split; [right; now left|auto].
      * exists true, 2. split; [reflexivity|]. exists (mkEdge false [(false, 1); (true, 3)]), 3. split; [right; now left|]. split; [right; now left|auto].
Qed.
(** a fermionic operand in the other order of legs changes sign at odd charges *)
Example C19_signed_example :
  let t1 := range_tensor [1; 2] [mkEdge false [(to_fermi (-1), 2)]; mkEdge true [(to_fermi 1, 2)]] in
  let t2 := range_tensor [2; 1] [mkEdge true [(to_fermi 1, 2)]; mkEdge false [(to_fermi (-1), 2)]] in
  wf_tensor t1 /\ wf_tensor t2 /\
  let pos := [(1, (to_fermi (-1), 1)); (2, (to_fermi 1, 0))] in
  const_at t1 pos = Ok 3%Z /\ const_at t2 pos = Ok 2%Z /\ bind (scalar_op exE Z.add t1 t2) (fun r => const_at r pos) = Ok 1%Z /\
  bind (scalar_inplace exE Z.add t1 t2) (fun r => const_at r pos) = Ok 1%Z.
Proof. split; [now apply range_wf|]. split; [now apply range_wf|]. repeat split; vm_compute; reflexivity. Qed.

(** ** C49.  [stored t]: all elements, block after block. *)
Theorem C49_transform :
  forall (S R : Type) (f : R -> R) (t : tensor S R),
  stored (transform f t) = map f (stored t) /\ map fst (t_blocks (transform f t)) = map fst (t_blocks t).
Proof. exact @transform_stored. Qed.
Print Assumptions C49_transform.
Theorem C49_map :
  forall (S R : Type) (SS : Sym S) (SL : SymLaws S) (junk : R) (f : R -> R) (t : tensor S R), wf_tensor t ->
  map_tensor junk f t = Ok (transform f t).
Proof. exact @map_tensor_transform. Qed.
Print Assumptions C49_map.
Theorem C49_transform_at :
  forall (S R : Type) (SS : Sym S) (SL : SymLaws S) (f : R -> R) (t : tensor S R) pos pt, wf_tensor t ->
  assigns pos (t_names t) pt -> valid_pt (t_core t) pt ->
  exists v, const_at t pos = Ok v /\ const_at (transform f t) pos = Ok (f v).
Proof. exact @transform_at. Qed.
Print Assumptions C49_transform_at.
(** set: the generator is called once per element, in storage order; [generate g n st]: the first n results from state st *)
Theorem C49_set :
  forall (S R : Type) (St : Type) (g : St -> R * St) st (t : tensor S R),
  stored (set_tensor g st t) = fst (generate g (length (stored t)) st) /\
  map (fun kb => (fst kb, length (snd kb))) (t_blocks (set_tensor g st t)) = map (fun kb => (fst kb, length (snd kb))) (t_blocks t).
Proof. exact @set_stored. Qed.
Print Assumptions C49_set.
(** test: the element number k is first + step + ... + step (k times) *)
Theorem C49_test :
  forall (S R : Type) (RR : Scalar R) first step (t : tensor S R),
  stored (test_tensor first step t) = map (fun k => Nat.iter k (fun v => radd v step) first) (seq 0 (length (stored t))).
Proof. exact @test_stored. Qed.
Print Assumptions C49_test.
Theorem C49_zero :
  forall (S R : Type) (RR : Scalar R) (t : tensor S R), stored (zero_tensor t) = repeat rzero (length (stored t)).
Proof. exact @zero_stored. Qed.
Print Assumptions C49_zero.
(** p-norms for p <> 0, -1: root of the fold of the powers over all stored elements *)
Theorem C49_norm_power :
  forall (S R : Type) (K : Type) (kzero : K) (kadd : K -> K -> K) (power : R -> K) (root : K -> K) (t : tensor S R),
  norm_power K kzero kadd power root t = root (fold_left (fun acc x => kadd acc (power x)) (stored t) kzero).
Proof. exact @norm_power_fold. Qed.
Print Assumptions C49_norm_power.
(** p = 0: the number of stored elements, when the conversion of sizes is additive (exact arithmetic) *)
Theorem C49_norm_count :
  forall (S R : Type) (K : Type) (kzero : K) (kadd : K -> K -> K) (ksize : nat -> K),
  (forall a b, kadd (ksize a) (ksize b) = ksize (a + b)) -> kzero = ksize 0 ->
  forall t : tensor S R, norm_zero K kzero kadd ksize t = ksize (length (stored t)).
Proof. exact @norm_zero_count. Qed.
Print Assumptions C49_norm_count.
(** p = -1: the maximum of zero and the absolute values *)
Theorem C49_norm_max :
  forall (S R : Type) (K : Type) (kzero : K) (kltb : K -> K -> bool),
  (forall a b c, kltb a b = false -> kltb b c = false -> kltb a c = false) -> (forall a b, kltb a b = true -> kltb b a = false) ->
  (forall a, kltb a a = false) ->
  forall (abs : R -> K) (t : tensor S R), let m := norm_max K kzero kltb abs t in
  kltb m kzero = false /\ (forall x, In x (stored t) -> kltb m (abs x) = false) /\ (m = kzero \/ exists x, In x (stored t) /\ m = abs x).
Proof. exact @norm_max_max. Qed.
Print Assumptions C49_norm_max.

Definition ex_w : tensor bool Z := range_tensor [1; 2] [mkEdge false [(false, 1); (true, 2)]; mkEdge false [(false, 2); (true, 1)]].
Example C49_example : wf_tensor ex_w /\ length (t_blocks ex_w) = 2 /\ stored ex_w = [1; 2; 3; 4]%Z /\
  stored (test_tensor 10%Z 5%Z ex_w) = [10; 15; 20; 25]%Z /\ stored (transform (fun x => (x * x - 7)%Z) ex_w) = [-6; -3; 2; 9]%Z /\
  norm_max Z 0%Z Z.ltb Z.abs (transform (fun x => (x * x - 20)%Z) ex_w) = 19%Z /\ norm_power Z 0%Z Z.add (fun x => (x * x)%Z) Z.sqrt ex_w = 5%Z /\
  norm_zero Z 0%Z Z.add Z.of_nat ex_w = 4%Z.
Proof. split; [now apply range_wf|]. repeat split. Qed.
