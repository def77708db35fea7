(** C88: the order in which a network of tensors is contracted does not matter. *)
From Coq Require Import String List Bool Arith ZArith Lia Permutation.
From Verif Require Import Base.Outcome Base.SMap Model.Symmetry Model.Edge Model.Core Model.EdgeOperator Model.Contract
  Spec.Blocks Spec.Sign Spec.Relabel Spec.Contract Spec.FermiContract Spec.Plain Spec.Svd Spec.Grid Proof.SymmetryFacts Proof.CoreFacts Proof.ElemFacts
  Proof.Associate Proof.AssociatePlain Proof.ScalarZ Proof.ExTensors.
Import ListNotations.

(** Tensors without symmetry: [ab], [bc], [ac] are the pairs of edges joining the first and the second tensor, the second and the
    third, the first and the third, any number of each.  The two orders give the same tensor, edges, order of edges and data. *)
Theorem C88_triangle : forall (R : Type) (RR : Scalar R), exact_arithmetic R -> associative_product R -> distributive_product R ->
  forall (E E1 E2 E3 : @env R) (I : internal) (A B C : tensor unit R) (ab bc ac : list (nat * nat)), NoDup [i_contract_0 I; i_contract_1 I; i_contract_2 I] ->
  wf_tensor A -> wf_tensor B -> wf_tensor C -> t_blocks A <> [] -> t_blocks B <> [] -> t_blocks C <> [] ->
  incl (map fst ab ++ map fst ac) (t_names A) -> incl (map snd ab ++ map fst bc) (t_names B) -> incl (map snd bc ++ map snd ac) (t_names C) ->
  NoDup (map fst ab ++ map fst ac) -> NoDup (map snd ab ++ map fst bc) -> NoDup (map snd bc ++ map snd ac) ->
  (forall x y, In (x, y) ab -> dimension A x = dimension B y) -> (forall x y, In (x, y) bc -> dimension B x = dimension C y) -> (forall x y, In (x, y) ac -> dimension A x = dimension C y) ->
  (forall n, In n (free_names (t_names A) (map fst ab)) -> In n (free_names (t_names B) (map snd ab)) -> False) ->
  (forall n, In n (free_names (t_names B) (map fst bc)) -> In n (free_names (t_names C) (map snd bc)) -> False) ->
  (forall n, In n (free_names (t_names A) (map fst ab ++ map fst ac)) -> In n (free_names (t_names C) (map snd bc ++ map snd ac)) -> False) ->
  exists AB BC r, contract E I A B ab = Ok AB /\ contract E1 I B C bc = Ok BC /\
    contract E2 I AB C (bc ++ ac) = Ok r /\ contract E3 I A BC (ab ++ ac) = Ok r /\
    t_names r = free_names (t_names A) (map fst ab ++ map fst ac) ++ free_names (t_names B) (map snd ab ++ map fst bc) ++ free_names (t_names C) (map snd bc ++ map snd ac).
Proof. exact @associate. Qed.
Print Assumptions C88_triangle.

Definition I88 : internal := mkInternal 101 102 103 104 105 106.
Definition d88 (d : nat) : edge unit := mkEdge false [(tt, d)].
Definition a88 : tensor unit Z := range_tensor [1; 2; 3; 4] [d88 2; d88 3; d88 2; d88 2].
Definition b88 : tensor unit Z := range_tensor [5; 6; 7] [d88 3; d88 2; d88 2].
Definition c88 : tensor unit Z := range_tensor [8; 9; 1] [d88 2; d88 2; d88 3].
Example C88_triangle_example : NoDup [101; 102; 103] /\ wf_tensor a88 /\ wf_tensor b88 /\ wf_tensor c88 /\ t_blocks a88 <> [] /\ t_blocks b88 <> [] /\ t_blocks c88 <> [] /\
  (forall x y, In (x, y) [(2, 5); (3, 6)] -> dimension a88 x = dimension b88 y) /\ (forall x y, In (x, y) [(7, 8)] -> dimension b88 x = dimension c88 y) /\
  (forall x y, In (x, y) [(1, 9)] -> dimension a88 x = dimension c88 y).
Proof.
  split; [repeat constructor; cbn; lia|]. split; [now apply range_wf|]. split; [now apply range_wf|]. split; [now apply range_wf|].
  split; [discriminate|]. split; [discriminate|]. split; [discriminate|]. split; [|split].
  - intros x y [H|[H|[]]]; injection H as <- <-; reflexivity.
  - intros x y [H|[]]; injection H as <- <-; reflexivity.
  - intros x y [H|[]]; injection H as <- <-; reflexivity.
Qed.
Example C88_triangle_value :
  let r := bind (contract exE I88 a88 b88 [(2, 5); (3, 6)]) (fun x => contract exE I88 x c88 [(7, 8); (1, 9)]) in
  bind (contract exE I88 b88 c88 [(7, 8)]) (fun x => contract exE I88 a88 x [(2, 5); (3, 6); (1, 9)]) = r /\
  bind r (fun r => Ok (t_names r, t_blocks r)) = Ok ([4; 1], [([tt; tt], [13672; 15824; 17976; 14566; 16874; 19182]%Z)]).
Proof. split; vm_compute; reflexivity. Qed.

(** Symmetric tensors, bosonic and fermionic: a chain of three tensors, neighbours joined by one pair of edges.  Both orders give
    the same tensor, signs of the fermions included; for fermions the arrows of all edges too. *)
Theorem C88_chain :
  forall (S R : Type) (SS : Sym S) (SL : SymLaws S) (RR : Scalar R),
  @is_nosym S SS = false -> exact_arithmetic R -> associative_product R -> distributive_product R -> (@is_fermi S SS = true -> exact_negation R) ->
  forall (E E1 E2 E3 : @env R) (I : internal) (A B C : tensor S R) (a b b' c : nat), i_contract_1 I <> i_contract_2 I ->
  wf_tensor A -> wf_tensor B -> wf_tensor C -> t_blocks A <> [] -> t_blocks B <> [] ->
  In a (t_names A) -> In b (t_names B) -> In b' (t_names B) -> In c (t_names C) -> b <> b' ->
  (forall s d, In (s, d) (emap (edge_named (legs_of A) a)) <-> In (sneg s, d) (emap (edge_named (legs_of B) b))) ->
  (@is_fermi S SS = true -> earrow (edge_named (legs_of A) a) = negb (earrow (edge_named (legs_of B) b))) ->
  (forall s d, In (s, d) (emap (edge_named (legs_of B) b')) <-> In (sneg s, d) (emap (edge_named (legs_of C) c))) ->
  (@is_fermi S SS = true -> earrow (edge_named (legs_of B) b') = negb (earrow (edge_named (legs_of C) c))) ->
  NoDup (free_names (t_names A) [a] ++ free_names (t_names B) [b]) -> NoDup (free_names (t_names B) [b'] ++ free_names (t_names C) [c]) ->
  NoDup (free_names (t_names A) [a] ++ free_names (t_names B) [b; b'] ++ free_names (t_names C) [c]) ->
  (@is_fermi S SS = true -> (forall t n, t = A \/ t = B \/ t = C -> In n (t_names t) -> arrow_valid (edge_named (legs_of t) n) = true) /\
    forall E0, In E0 [E; E1; E2; E3] -> env_arrow E0 <> None \/ (free_names (t_names A) [a] <> [] /\ free_names (t_names C) [c] <> [])) ->
  exists AB ABC BC ABC', contract E I A B [(a, b)] = Ok AB /\ contract E1 I AB C [(b', c)] = Ok ABC /\
    contract E2 I B C [(b', c)] = Ok BC /\ contract E3 I A BC [(a, b)] = Ok ABC' /\
    t_names ABC = free_names (t_names A) [a] ++ free_names (t_names B) [b; b'] ++ free_names (t_names C) [c] /\ t_names ABC' = t_names ABC /\
    map emap (t_edges ABC') = map emap (t_edges ABC) /\ (@is_fermi S SS = true -> t_edges ABC' = t_edges ABC) /\ t_blocks ABC' = t_blocks ABC.
Proof. exact @contract_chain. Qed.
Print Assumptions C88_chain.

Definition f88 (z : Z) : fermi16 := to_fermi z.
Definition u88 (arrow : bool) : edge fermi16 := mkEdge arrow [(f88 (-1), 1); (f88 0, 1); (f88 1, 1)].
Definition fa88 : tensor fermi16 Z := range_tensor [1; 2] [u88 true; u88 false].
Definition fb88 : tensor fermi16 Z := range_tensor [3; 4; 5] [u88 false; u88 true; u88 true].
Definition fc88 : tensor fermi16 Z := range_tensor [6; 7] [u88 true; u88 false].
Lemma u88_match : forall x y s d, In (s, d) (emap (u88 x)) <-> In (sneg s, d) (emap (u88 y)).
Proof.
  intros x y s d. change (emap (u88 x)) with [(f88 (-1), 1); (f88 0, 1); (f88 1, 1)]. change (emap (u88 y)) with [(f88 (-1), 1); (f88 0, 1); (f88 1, 1)].
  assert (N1 : sneg (f88 1) = f88 (-1)) by reflexivity. assert (N2 : sneg (f88 (-1)) = f88 1) by reflexivity. assert (N0 : sneg (f88 0) = f88 0) by reflexivity.
  split; intros [H|[H|[H|[]]]]; assert (Hs := f_equal fst H); assert (Hd := f_equal snd H); cbn [fst snd] in Hs, Hd; subst d; clear H; apply (f_equal sneg) in Hs; rewrite ?sneg_invol in Hs; rewrite <- Hs; rewrite ?N0, ?N1, ?N2; cbn [In]; auto.
Qed.
Example C88_chain_example : wf_tensor fa88 /\ wf_tensor fb88 /\ wf_tensor fc88 /\ t_blocks fa88 <> [] /\ t_blocks fb88 <> [] /\
  (forall s d, In (s, d) (emap (edge_named (legs_of fa88) 2)) <-> In (sneg s, d) (emap (edge_named (legs_of fb88) 4))) /\
  earrow (edge_named (legs_of fa88) 2) = negb (earrow (edge_named (legs_of fb88) 4)) /\
  (forall s d, In (s, d) (emap (edge_named (legs_of fb88) 3)) <-> In (sneg s, d) (emap (edge_named (legs_of fc88) 6))) /\
  earrow (edge_named (legs_of fb88) 3) = negb (earrow (edge_named (legs_of fc88) 6)) /\
  (forall t n, t = fa88 \/ t = fb88 \/ t = fc88 -> In n (t_names t) -> arrow_valid (edge_named (legs_of t) n) = true) /\
  free_names (t_names fa88) [2] <> [] /\ free_names (t_names fc88) [6] <> [].
Proof.
  split; [now apply range_wf|]. split; [now apply range_wf|]. split; [now apply range_wf|]. split; [discriminate|]. split; [discriminate|].
  split; [apply u88_match|]. split; [reflexivity|]. split; [apply u88_match|]. split; [reflexivity|]. split; [|split; discriminate].
  intros t n [->|[->| ->]] Hn; [change (In n [1; 2]) in Hn|change (In n [3; 4; 5]) in Hn|change (In n [6; 7]) in Hn];
    repeat (destruct Hn as [<-|Hn]; [vm_compute; reflexivity|]); destruct Hn.
Qed.
Definition p88 : list (nat * (fermi16 * nat)) := [(1, (f88 1, 0)); (5, (f88 (-1), 0)); (7, (f88 0, 0))].
Example C88_chain_value :
  bind (bind (contract exE I88 fa88 fb88 [(2, 4)]) (fun x => contract exE I88 x fc88 [(3, 6)])) (fun r => const_at r p88) = Ok (-30)%Z /\
  bind (bind (contract exE I88 fb88 fc88 [(3, 6)]) (fun x => contract exE I88 fa88 x [(2, 4)])) (fun r => const_at r p88) = Ok (-30)%Z.
Proof. split; vm_compute; reflexivity. Qed.

(** Full statement: three symmetric tensors joined by any pairs of edges with opposite charges.  False: with two pairs of edges
    between the first two tensors the edges that remain of the second may lose the charges no block of it uses ([contract]
    merges them and splits them again), and then they do not match the edges of the third any more. *)
Definition every_order : Prop := forall (E E1 E2 E3 : @env Z) (I : internal) (A B C : tensor bool Z) (ab bc : list (nat * nat)), NoDup [i_contract_0 I; i_contract_1 I; i_contract_2 I] ->
  wf_tensor A -> wf_tensor B -> wf_tensor C -> t_blocks A <> [] -> t_blocks B <> [] -> t_blocks C <> [] ->
  incl (map fst ab) (t_names A) -> incl (map snd ab ++ map fst bc) (t_names B) -> incl (map snd bc) (t_names C) ->
  NoDup (map fst ab) -> NoDup (map snd ab ++ map fst bc) -> NoDup (map snd bc) ->
  (forall x y, In (x, y) ab -> forall s d, In (s, d) (emap (edge_named (legs_of A) x)) <-> In (sneg s, d) (emap (edge_named (legs_of B) y))) ->
  (forall x y, In (x, y) bc -> forall s d, In (s, d) (emap (edge_named (legs_of B) x)) <-> In (sneg s, d) (emap (edge_named (legs_of C) y))) ->
  NoDup (t_names A ++ t_names B ++ t_names C) ->
  forall r, bind (contract E I B C bc) (fun x => contract E1 I A x ab) = Ok r ->
  exists r', bind (contract E2 I A B ab) (fun x => contract E3 I x C bc) = Ok r'.
Definition z88 : edge bool := mkEdge false [(false, 1); (true, 1)].
Definition za88 : tensor bool Z := range_tensor [1; 2] [z88; z88].
Definition zb88 : tensor bool Z := range_tensor [3; 4; 5] [z88; z88; z88].
Definition zc88 : tensor bool Z := range_tensor [6; 7] [z88; z88].
Example C88_two_orders : bind (contract exE I88 za88 zb88 [(1, 3); (2, 4)]) (fun x => contract exE I88 x zc88 [(5, 6)]) = Throw OutOfRange /\
  bind (contract exE I88 zb88 zc88 [(5, 6)]) (fun x => contract exE I88 za88 x [(1, 3); (2, 4)]) = Ok (mkTensor [7] (mkCore [mkEdge false [(false, 1)]] [([false], [9%Z])])).
Proof. split; vm_compute; reflexivity. Qed.
Theorem C88_refuted : ~ every_order.
Proof.
  intro H. destruct C88_two_orders as [X Y].
  assert (Q : exists r', bind (contract exE I88 za88 zb88 [(1, 3); (2, 4)]) (fun x => contract exE I88 x zc88 [(5, 6)]) = Ok r').
  { refine (H exE exE exE exE I88 za88 zb88 zc88 [(1, 3); (2, 4)] [(5, 6)] _ _ _ _ _ _ _ _ _ _ _ _ _ _ _ _ _ Y).
    - clear; repeat constructor; cbn; lia.
    - now apply range_wf.
    - now apply range_wf.
    - now apply range_wf.
    - discriminate.
    - discriminate.
    - discriminate.
    - intros n Hn; cbn in Hn |- *; clear - Hn; tauto.
    - intros n Hn; cbn in Hn |- *; clear - Hn; tauto.
    - intros n Hn; cbn in Hn |- *; clear - Hn; tauto.
    - clear; repeat constructor; cbn; lia.
    - clear; repeat constructor; cbn; lia.
    - clear; repeat constructor; cbn; lia.
    - intros x y [K|[K|[]]] s d; injection K as <- <-; reflexivity.
    - intros x y [K|[]] s d; injection K as <- <-; reflexivity.
    - clear; repeat constructor; cbn; lia. }
  destruct Q as [r' Q]. rewrite X in Q. discriminate.
Qed.
Print Assumptions C88_refuted.
