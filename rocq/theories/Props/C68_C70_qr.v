(** C68: the product of the factors of qr.  C69: sizes and orthonormality of Q.  C70: the triangle R.
    [L]: the LAPACK routines; [qr_sound]: what they promise about calls that report success (Spec/Lapack.v).  All symmetries,
    fermions included. *)
From Coq Require Import String Ascii List Bool Arith ZArith.
From Verif Require Import Base.Outcome Base.SMap Model.Symmetry Model.Edge Model.Core Model.EdgeOperator Model.Contract Model.Qr
  Spec.Blocks Spec.Fuse Spec.Sign Spec.Relabel Spec.Contract Spec.FermiContract Spec.Matrix Spec.Lapack Spec.Factor Proof.SymmetryFacts Proof.CoreFacts Proof.ElemFacts
  Proof.QrProps Proof.ScalarZ Proof.ExTensors Proof.ExFilled Proof.ExQr.
Import ListNotations.

(** ** C68.  Either LAPACK reports an error and the call throws, or contracting Q and R over the new edge and restoring the order
    of the edges gives back the tensor: same edges, same elements, same arrows of edges that have fermions. *)
Theorem C68_qr_product :
  forall (S R : Type) (SS : Sym S) (SL : SymLaws S) (RR : Scalar R), exact_arithmetic R -> (@is_fermi S SS = true -> exact_negation R) ->
  forall (L : qr_lapack R), qr_sound L ->
  forall (E : @env R) (I : qr_names) (t : tensor S R) (direction : ascii) (free : list nat) (cq cr : nat),
  wf_tensor t -> known_direction direction = true ->
  i_qr_1 I <> i_qr_2 I -> cq <> i_qr_1 I /\ cq <> i_qr_2 I -> cr <> i_qr_1 I /\ cr <> i_qr_2 I ->
  ~ In cq (q_legs direction free t) -> ~ In cr (r_legs direction free t) ->
  (@is_fermi S SS = true -> group_arrow_known (env_arrow E) t (q_legs direction free t) /\ group_arrow_known (env_arrow E) t (r_legs direction free t)) ->
  t_blocks t <> [] -> forall (E' : @env R) (J : internal), NoDup [i_contract_0 J; i_contract_1 J; i_contract_2 J] ->
  (@is_fermi S SS = true -> group_arrow_known (env_arrow E') t (q_legs direction free t) /\ group_arrow_known (env_arrow E') t (r_legs direction free t)) ->
  (exists msg, qr L E I t direction free cq cr = Throw (RuntimeError msg) /\ ~ qr_never_fails L) \/
  exists q r t', qr L E I t direction free cq cr = Ok (q, r) /\
    bind (contract E' J q r [(cq, cr)]) (fun p => transpose E' p (t_names t)) = Ok t' /\
    wf_tensor t' /\ t_names t' = t_names t /\ map emap (t_edges t') = map emap (t_edges t) /\ t_blocks t' = t_blocks t /\
    (@is_fermi S SS = true -> forall n, In n (t_names t) -> arrow_valid (edge_named (legs_of t) n) = true -> earrow (edge_named (legs_of t') n) = earrow (edge_named (legs_of t) n)).
Proof. exact @qr_reconstructs. Qed.
Print Assumptions C68_qr_product.

(** ** C69 *)
Theorem C69_qr_shape :
  forall (S R : Type) (SS : Sym S) (SL : SymLaws S) (RR : Scalar R), exact_arithmetic R ->
  forall (L : qr_lapack R), qr_sound L ->
  forall (E : @env R) (I : qr_names) (t : tensor S R) (direction : ascii) (free : list nat) (cq cr : nat),
  wf_tensor t -> known_direction direction = true ->
  i_qr_1 I <> i_qr_2 I -> cq <> i_qr_1 I /\ cq <> i_qr_2 I -> cr <> i_qr_1 I /\ cr <> i_qr_2 I ->
  ~ In cq (q_legs direction free t) -> ~ In cr (r_legs direction free t) ->
  (@is_fermi S SS = true -> group_arrow_known (env_arrow E) t (q_legs direction free t) /\ group_arrow_known (env_arrow E) t (r_legs direction free t)) ->
  (exists msg, qr L E I t direction free cq cr = Throw (RuntimeError msg) /\ ~ qr_never_fails L) \/
  exists q r, qr L E I t direction free cq cr = Ok (q, r) /\ wf_tensor q /\ wf_tensor r /\
    (t_names q = q_legs direction free t ++ [cq] /\ t_names r = cr :: r_legs direction free t \/
     t_names q = cq :: q_legs direction free t /\ t_names r = r_legs direction free t ++ [cr]) /\
    (forall n, In n (q_legs direction free t) -> emap (edge_named (legs_of q) n) = emap (edge_named (legs_of t) n)) /\
    (forall n, In n (r_legs direction free t) -> emap (edge_named (legs_of r) n) = emap (edge_named (legs_of t) n)) /\
    (forall s d, In (s, d) (emap (edge_named (legs_of q) cq)) <->
      has_charge t (q_legs direction free t) (sneg s) /\ has_charge t (r_legs direction free t) s /\
      d = Nat.min (fused_dim t (q_legs direction free t) (sneg s)) (fused_dim t (r_legs direction free t) s)) /\
    (forall s d, In (s, d) (emap (edge_named (legs_of r) cr)) <-> In (sneg s, d) (emap (edge_named (legs_of q) cq))) /\
    (@is_fermi S SS = true -> earrow (edge_named (legs_of q) cq) = true /\ earrow (edge_named (legs_of r) cr) = false).
Proof. exact @qr_shape. Qed.
Print Assumptions C69_qr_shape.

Theorem C69_qr_orthonormal :
  forall (S R : Type) (SS : Sym S) (SL : SymLaws S) (RR : Scalar R), exact_arithmetic R -> (@is_fermi S SS = true -> exact_negation R) ->
  forall (L : qr_lapack R), qr_sound L ->
  forall (E : @env R) (I : qr_names) (t : tensor S R) (direction : ascii) (free : list nat) (cq cr : nat),
  wf_tensor t -> known_direction direction = true ->
  i_qr_1 I <> i_qr_2 I -> cq <> i_qr_1 I /\ cq <> i_qr_2 I -> cr <> i_qr_1 I /\ cr <> i_qr_2 I ->
  ~ In cq (q_legs direction free t) -> ~ In cr (r_legs direction free t) ->
  (@is_fermi S SS = true -> group_arrow_known (env_arrow E) t (q_legs direction free t) /\ group_arrow_known (env_arrow E) t (r_legs direction free t)) ->
  exact_conjugation R ->
  (exists msg, qr L E I t direction free cq cr = Throw (RuntimeError msg) /\ ~ qr_never_fails L) \/
  exists q r, qr L E I t direction free cq cr = Ok (q, r) /\
    forall s a s' b, in_range [emap (edge_named (legs_of q) cq)] [(s, a)] -> in_range [emap (edge_named (legs_of q) cq)] [(s', b)] ->
      rsum (map (fun pt => rmul (rconj (element q ((cq, (s, a)) :: combine (q_legs direction free t) pt)))
                                (element q ((cq, (s', b)) :: combine (q_legs direction free t) pt)))
             (points (map (fun n => emap (edge_named (legs_of q) n)) (q_legs direction free t)))) = if eqb s s' then ident a b else rzero.
Proof. exact @qr_isometry. Qed.
Print Assumptions C69_qr_orthonormal.

(** ** C70.  The element is zero where the index of the remaining edges of R, taken together ([joined]: the coordinate in the
    fused edge), is below the index of the new edge. *)
Theorem C70_qr_triangular :
  forall (S R : Type) (SS : Sym S) (SL : SymLaws S) (RR : Scalar R), exact_arithmetic R -> (@is_fermi S SS = true -> exact_negation R) ->
  forall (L : qr_lapack R), qr_sound L ->
  forall (E : @env R) (I : qr_names) (t : tensor S R) (direction : ascii) (free : list nat) (cq cr : nat),
  wf_tensor t -> known_direction direction = true ->
  i_qr_1 I <> i_qr_2 I -> cq <> i_qr_1 I /\ cq <> i_qr_2 I -> cr <> i_qr_1 I /\ cr <> i_qr_2 I ->
  ~ In cq (q_legs direction free t) -> ~ In cr (r_legs direction free t) ->
  (@is_fermi S SS = true -> group_arrow_known (env_arrow E) t (q_legs direction free t) /\ group_arrow_known (env_arrow E) t (r_legs direction free t)) ->
  (exists msg, qr L E I t direction free cq cr = Throw (RuntimeError msg) /\ ~ qr_never_fails L) \/
  exists q r, qr L E I t direction free cq cr = Ok (q, r) /\
    forall pos pt, assigns pos (t_names r) pt -> valid_pt (t_core r) pt ->
      snd (joined (legs_of r) (r_legs direction free t) pos) < snd (coord pos cr) -> const_at r pos = Ok rzero.
Proof. exact @qr_triangular. Qed.
Print Assumptions C70_qr_triangular.

(** An oracle that factors triangular matrices (Q is minus the identity) and reports an error for the others; two fermionic
    tensors, one factored as Q R, the other, since its last edge goes to Q, through xGELQF *)
Definition f68 (z : Z) : fermi16 := to_fermi z.
Definition t68 (data : list Z) : tensor fermi16 Z := filled [1; 2; 3]
  [mkEdge true [(f68 0, 1); (f68 1, 1)]; mkEdge false [(f68 (-1), 1); (f68 0, 2)]; mkEdge true [(f68 0, 2); (f68 1, 2)]] (fun _ i => nth i data 0%Z).
Definition u68 : tensor fermi16 Z := t68 [3; 5; 0; 7]%Z.
Definition v68 : tensor fermi16 Z := t68 [3; 0; 5; 7]%Z.
Definition I68 : qr_names := mkQrNames 201 202.
Definition J68 : internal := mkInternal 101 102 103 104 105 106.
Definition again68 (t : tensor fermi16 Z) (free : list nat) : res (list (list fermi16 * list Z)) :=
  bind (qr zqr exE I68 t "q"%char free 8 9) (fun qr => bind (contract exE J68 (fst qr) (snd qr) [(8, 9)]) (fun p => bind (transpose exE p [1; 2; 3]) (fun r => Ok (t_blocks r)))).
Example C68_example : exact_arithmetic Z /\ exact_negation Z /\ exact_conjugation Z /\ qr_sound zqr /\ wf_tensor u68 /\ wf_tensor v68 /\
  known_direction "q"%char = true /\ t_blocks u68 <> [] /\
  (q_legs "q"%char [2] u68 = [2] /\ r_legs "q"%char [2] u68 = [1; 3]) /\ (q_legs "q"%char [3] v68 = [3] /\ r_legs "q"%char [3] v68 = [1; 2]) /\
  (group_arrow_known None u68 [2] /\ group_arrow_known None u68 [1; 3]) /\ (group_arrow_known None v68 [3] /\ group_arrow_known None v68 [1; 2]) /\
  again68 u68 [2] = Ok (t_blocks u68) /\ again68 v68 [3] = Ok (t_blocks v68) /\
  map snd (t_blocks u68) = [[3; 5]; [3; 5; 0; 7]; [3; 5]]%Z /\ map snd (t_blocks v68) = [[3; 0]; [3; 0; 5; 7]; [3; 0]]%Z /\
  again68 v68 [2] = Throw (RuntimeError "Error in LQ") /\ again68 u68 [3] = Throw (RuntimeError "Error in QR").
Proof.
  split; [exact exact_Z|]. split; [exact negation_Z|]. split; [exact conjugation_Z|]. split; [exact zqr_sound|]. split; [now apply (filled_wf _ _ _ _ _)|]. split; [now apply (filled_wf _ _ _ _ _)|].
  split; [reflexivity|]. split; [discriminate|]. split; [split; vm_compute; reflexivity|]. split; [split; vm_compute; reflexivity|].
  split; [split; right; right; [exists 2|exists 1]; (split; [now left|vm_compute; reflexivity])|].
  split; [split; right; right; [exists 3|exists 1]; (split; [now left|vm_compute; reflexivity])|].
  repeat (split; [vm_compute; reflexivity|]). vm_compute; reflexivity.
Qed.
(** the tensors of C68_example: Q of the first has the new edge last, of the second first; dimensions 2 and 1 of charges 0 and 1;
    some sum of C69 and some zero of C70 *)
Example C69_example :
  bind (qr zqr exE I68 u68 "q"%char [2] 8 9) (fun qr => Ok (t_names (fst qr), t_names (snd qr), map snd (emap (edge_named (legs_of (fst qr)) 8)), map snd (t_blocks (fst qr)))) =
    Ok ([2; 8], [9; 1; 3], [2; 1], [[-1]; [-1; 0; 0; -1]]%Z) /\
  bind (qr zqr exE I68 v68 "q"%char [3] 8 9) (fun qr => Ok (t_names (fst qr), t_names (snd qr), map snd (emap (edge_named (legs_of (fst qr)) 8)))) = Ok ([8; 3], [1; 2; 9], [1; 2]) /\
  (fused_dim u68 [2] (f68 0) = 2 /\ fused_dim u68 [1; 3] (f68 0) = 2 /\ fused_dim u68 [2] (f68 (-1)) = 1 /\ fused_dim u68 [1; 3] (f68 1) = 4).
Proof. split; [vm_compute; reflexivity|]. split; [vm_compute; reflexivity|]. vm_compute. repeat split. Qed.
Definition p68 : list (nat * (fermi16 * nat)) := [(9, (f68 0, 1)); (1, (f68 0, 0)); (3, (f68 0, 0))].
Example C70_example :
  bind (qr zqr exE I68 u68 "q"%char [2] 8 9) (fun qr => Ok (snd (joined (legs_of (snd qr)) [1; 3] p68), snd (coord p68 9))) = Ok (0, 1) /\
  bind (qr zqr exE I68 u68 "q"%char [2] 8 9) (fun qr => const_at (snd qr) p68) = Ok 0%Z.
Proof. split; vm_compute; reflexivity. Qed.
