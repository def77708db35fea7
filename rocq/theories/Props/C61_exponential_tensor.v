(** C61: the exponential of a tensor. *)
From Coq Require Import String List Bool Arith ZArith QArith Qcanon Lia Permutation.
From Verif Require Import Base.Outcome Base.SMap Model.Symmetry Model.Edge Model.Core Model.EdgeOperator Model.Exponential
  Spec.Blocks Spec.Fuse Spec.Relabel Spec.Contract Spec.Matrix Spec.Operator Proof.SymmetryFacts Proof.CoreFacts Proof.ElemFacts
  Proof.ExpOperator Proof.ScalarQ Proof.ExTensors Proof.ExFilled.
Import ListNotations.
Local Open Scope nat_scope.

(** Spec/Operator.v.  Rows and columns are the points of the first names of the pairs, one matrix Op s for each total charge s; M s are
    its entries as handed to the matrix exponential of C39.  One pair of opposite edges, or any number of pairs when every charge is its
    own opposite.  Missing from C61: fermionic tensors, zero blocks, magnitudes of 2^30 and more (C39), several pairs of U1 edges (below). *)
Theorem C61_operator_partial : forall (S R : Type) (SS : Sym S) (SL : SymLaws S) (RR : Scalar R) (ER : ExpScalar R), @is_fermi S SS = false -> exact_field R of_int ->
  forall (E : @env R) (gesv : gesv_routine R) (no_name X1 X2 : name), X1 <> X2 ->
  forall (t : tensor S R) pairs q, wf_tensor t -> Permutation (t_names t) (map fst pairs ++ map snd pairs) ->
  (forall a b s d, In (a, b) pairs -> In (s, d) (emap (edge_named (legs_of t) a)) <-> In (sneg s, d) (emap (edge_named (legs_of t) b))) ->
  length pairs <= 1 \/ (forall s : S, sneg s = s) ->
  (Z.of_nat q * (Z.of_nat q + 1) < 2 ^ 31)%Z ->
  let maps l := map (fun n => emap (edge_named (legs_of t) n)) l in
  exists (cnt : S -> nat) (idx : list (S * nat) -> nat) (Op : S -> matrix) (M : S -> list R),
    numbering (maps (map fst pairs)) cnt idx /\
    (forall x y, in_range (maps (map fst pairs)) x -> in_range (maps (map fst pairs)) y -> total x = total y ->
       Op (total x) (idx x) (idx y) = element t (row_column pairs x y)) /\
    (forall c, In c (tuples (maps (map fst pairs))) -> lists (cnt (total c)) (M (total c)) (Op (total c))) /\
    forall (lg : S -> Z) (V : S -> matrix),
      let scaled s := mscale (rdiv rone (of_int (2 ^ Z.of_nat (Z.to_nat (1 + lg s))))) (Op s) in
      (forall c, In c (tuples (maps (map fst pairs))) -> let s := total c in
         0 < cnt s /\ solves gesv (cnt s) /\ trunc_log2 (largest real_lt real_zero (map rabs (M s))) = Some (lg s) /\ (- 2 ^ 31 <= lg s < 30)%Z /\
         inverse (cnt s) (V s) (pade_polynomial (cnt s) of_int q (mopp (scaled s)))) ->
      exists r, exponential E gesv no_name X1 X2 t pairs (Z.of_nat q) = Ok r /\ wf_tensor r /\ Permutation (t_names t) (t_names r) /\
        (forall pt, valid_pt (t_core r) pt <-> in_range (maps (t_names r)) pt /\ ssum (map fst pt) = szero) /\
        forall x y, in_range (maps (map fst pairs)) x -> in_range (maps (map fst pairs)) y -> total x = total y -> let s := total x in
          const_at r (row_column pairs x y) =
            Ok (mpow (cnt s) (mmul (cnt s) (V s) (pade_polynomial (cnt s) of_int q (scaled s))) (2 ^ Z.to_nat (1 + lg s)) (idx x) (idx y)).
Proof. exact @exponential_operator. Qed.
Print Assumptions C61_operator_partial.

Definition exE61 : @env Qc := mkEnv (Q2Qc 77) None false (fun _ => false).
Definition shown {A} (x : res Qc) (f : Q -> A) : option A := match x with Ok v => Some (f (this v)) | _ => None end.
(** two pairs of Z2 edges; both charges have two points *)
Definition z2e : edge bool := mkEdge false [(false, 1); (true, 1)].
Definition ex61_t : tensor bool Qc := filled [1; 2; 3; 4] [z2e; z2e; z2e; z2e]
  (fun key _ => match key with [a; b; c; d] => Q2Qc (inject_Z ((if a then 1 else 0) + (if b then 2 else 0) + (if c then 1 else 0))) | _ => 0%Qc end).
Definition even61 (i : nat) : list (bool * nat) := if Nat.eqb i 0 then [(false, 0); (false, 0)] else [(true, 0); (true, 0)].
Definition op61 : matrix := fun i j => element ex61_t (row_column [(3, 1); (2, 4)] (even61 i) (even61 j)).
Definition sc61 : matrix := mscale (rdiv rone (of_int 8)) op61.
Definition inv61 (d : matrix) : matrix := by_rows 2 (let det := (d 0%nat 0%nat * d 1%nat 1%nat - d 0%nat 1%nat * d 1%nat 0%nat)%Qc in
  [(d 1%nat 1%nat / det)%Qc; (- d 0%nat 1%nat / det)%Qc; (- d 1%nat 0%nat / det)%Qc; (d 0%nat 0%nat / det)%Qc]).
Example C61_example : wf_tensor ex61_t /\ solves solver 2 /\ exact_field Qc of_int /\
  (forall a b s d, In (a, b) [(3, 1); (2, 4)] -> In (s, d) (emap (edge_named (legs_of ex61_t) a)) <-> In (sneg s, d) (emap (edge_named (legs_of ex61_t) b))) /\
  (forall s : bool, sneg s = s) /\ inverse 2 (inv61 (pade_polynomial 2 of_int 2 (mopp sc61))) (pade_polynomial 2 of_int 2 (mopp sc61)) /\
  map (fun ij => this (op61 (fst ij) (snd ij))) [(0, 0); (0, 1); (1, 0); (1, 1)] = [0; 1; 3; 4]%Q /\
  forallb (fun ij => match shown (bind (exponential exE61 solver 0 11 12 ex61_t [(3, 1); (2, 4)] 2) (fun r => const_at r (row_column [(3, 1); (2, 4)] (even61 (fst ij)) (even61 (snd ij)))))
      (Qeq_bool (this (mpow 2 (mmul 2 (inv61 (pade_polynomial 2 of_int 2 (mopp sc61))) (pade_polynomial 2 of_int 2 sc61)) 8 (fst ij) (snd ij)))) with Some b => b | None => false end)
    [(0, 0); (0, 1); (1, 0); (1, 1)] = true.
Proof.
  split; [now apply (filled_wf _ _ _ _ _)|]. split; [exact solver_2|]. split; [exact exact_Q|]. split.
  { intros a b s d [H|[H|[]]]; injection H as <- <-; reflexivity. }
  split; [reflexivity|]. split.
  { split; intros i j Hi Hj; apply Qc_is_canon; (destruct i as [|[|i]]; [| |lia]); (destruct j as [|[|j]]; [| |lia]); vm_compute; reflexivity. }
  split; vm_compute; reflexivity.
Qed.

(** Two pairs of U1 edges: the tensor of the identity operator gets an exponential that is not diagonal.  The points of the second names
    are numbered in the order of their own charges, which is not the order of the opposite charges of the first names. *)
Definition up61 : edge Z := mkEdge false [(0%Z, 1); (1%Z, 1)].
Definition down61 : edge Z := mkEdge false [((-1)%Z, 1); (0%Z, 1)].
Definition ex61_u : tensor Z Qc := filled [1; 2; 3; 4] [up61; down61; up61; down61]
  (fun key _ => match key with [a; b; c; d] => if (Z.eqb (a + b) 0 && Z.eqb (c + d) 0)%bool then 1%Qc else 0%Qc | _ => 0%Qc end).
Theorem C61_refuted : exists (t : tensor Z Qc) pairs r x y,
  wf_tensor t /\ Permutation (t_names t) (map fst pairs ++ map snd pairs) /\
  (forall a b s d, In (a, b) pairs -> In (s, d) (emap (edge_named (legs_of t) a)) <-> In (sneg s, d) (emap (edge_named (legs_of t) b))) /\
  let maps := map (fun p => emap (edge_named (legs_of t) (fst p))) pairs in
  (forall u v, In u (points maps) -> In v (points maps) -> total u = total v -> element t (row_column pairs u v) = if eqb u v then 1%Qc else 0%Qc) /\
  exponential exE61 solver 0 11 12 t pairs 2 = Ok r /\
  In x (points maps) /\ In y (points maps) /\ total x = total y /\ x <> y /\ element r (row_column pairs x y) <> 0%Qc.
Proof.
  destruct (exponential exE61 solver 0 11 12 ex61_u [(1, 2); (3, 4)] 2) as [r| | |] eqn:Er; [|exfalso; revert Er; vm_compute; discriminate..].
  exists ex61_u, [(1, 2); (3, 4)], r, [(0%Z, 0); (1%Z, 0)], [(1%Z, 0); (0%Z, 0)].
  split; [now apply (filled_wf _ _ _ _ _)|]. split.
  { change (Permutation [1; 2; 3; 4] [1; 3; 2; 4]). apply perm_skip, perm_swap. }
  split.
  { intros a b s d [H|[H|[]]]; injection H as <- <-; change (In (s, d) (emap up61) <-> In ((- s)%Z, d) (emap down61)); unfold up61, down61; cbn [emap In]; (split; intros [H|[H|[]]]; injection H as H1 <-; [right; left|left|right; left|left]; f_equal; lia). }
  split.
  { intros u v Hu Hv. vm_compute in Hu, Hv. repeat (destruct Hu as [<-|Hu]; [|]); try contradiction; repeat (destruct Hv as [<-|Hv]; [|]); try contradiction; vm_compute; intro H; try discriminate H; reflexivity. }
  split; [exact Er|]. split; [vm_compute; tauto|]. split; [vm_compute; tauto|]. split; [reflexivity|]. split; [discriminate|].
  assert (H : match exponential exE61 solver 0 11 12 ex61_u [(1, 2); (3, 4)] 2 with Ok r => Qeq_bool (this (element r (row_column [(1, 2); (3, 4)] [(0%Z, 0); (1%Z, 0)] [(1%Z, 0); (0%Z, 0)]))) 0 | _ => true end = false) by (vm_compute; reflexivity).
  rewrite Er in H. intro Hc. rewrite Hc in H. discriminate H.
Qed.
Print Assumptions C61_refuted.
