(** C71: the product of the factors of svd.  C72: sizes, spectrum and orthonormality.  C73: truncation.  C74: failures of LAPACK.
    [gesvd]: LAPACK's xGESVD; [svd_sound]: what it promises about calls that report success (Spec/Svd.v).  [V]: real numbers, [of_real]:
    as scalars.  The last component of the result says whether the warning "Error in GESVD" was printed.  All symmetries, fermions
    included. *)
From Coq Require Import String Ascii List Bool Arith ZArith.
From Verif Require Import Base.Outcome Base.SMap Model.Symmetry Model.Edge Model.Core Model.EdgeOperator Model.Contract Model.Misc Model.Svd
  Spec.Blocks Spec.Fuse Spec.Sign Spec.Relabel Spec.Contract Spec.FermiContract Spec.Matrix Spec.Lapack Spec.Factor Spec.Truncate Spec.Spectrum Spec.Svd Proof.SymmetryFacts Proof.CoreFacts Proof.ElemFacts
  Proof.SvdProps Proof.ScalarZ Proof.ExTensors Proof.ExFilled Proof.ExQr Proof.ExSvd.
Import ListNotations.

(** ** C71.  Unless LAPACK reports a failure: multiplying the new edge of U (or that of V) by the singular values, contracting and
    restoring the order of the edges gives back the tensor: same edges, same elements, same arrows of edges that have fermions. *)
Theorem C71_svd_product :
  forall (S R V : Type) (SS : Sym S) (SL : SymLaws S) (RR : Scalar R), exact_arithmetic R -> associative_product R ->
  forall (of_real : V -> R) (vzero : V) (greater : V -> V -> bool) (gesvd : nat -> nat -> list R -> bool * (list V * list R * list R)),
  svd_sound of_real vzero greater gesvd ->
  forall (E : @env R) (vjunk : V) (I : svd_names) (t : tensor S R) (free : list nat) (cu cv : nat),
  wf_tensor t -> i_svd_u I <> i_svd_v I -> cu <> i_svd_u I -> cv <> i_svd_v I -> ~ In cu (u_legs free t) -> ~ In cv (v_legs free t) ->
  (@is_fermi S SS = true -> group_arrow_known (env_arrow E) t (u_legs free t) /\ group_arrow_known (env_arrow E) t (v_legs free t)) ->
  (@is_fermi S SS = true -> exact_negation R) -> t_blocks t <> [] ->
  forall (E1 E2 : @env R) (J : internal) (du dv : ascii), dir_of du = Some false -> dir_of dv = Some true ->
  NoDup [i_contract_0 J; i_contract_1 J; i_contract_2 J] ->
  (@is_fermi S SS = true -> group_arrow_known (env_arrow E2) t (u_legs free t) /\ group_arrow_known (env_arrow E2) t (v_legs free t)) ->
  let same (t' : tensor S R) := wf_tensor t' /\ t_names t' = t_names t /\ map emap (t_edges t') = map emap (t_edges t) /\ t_blocks t' = t_blocks t /\
    (@is_fermi S SS = true -> forall n, In n (t_names t) -> arrow_valid (edge_named (legs_of t) n) = true -> earrow (edge_named (legs_of t') n) = earrow (edge_named (legs_of t) n)) in
  exists u v sing w, svd gesvd vzero greater E vjunk I t free cu cv None = Ok (u, sing, v, w) /\ (w = true -> ~ svd_never_fails gesvd) /\
    (w = false ->
      (exists u' t', multiple E1 u (as_scalars of_real sing) cu du false = Ok u' /\
         bind (contract E2 J u' v [(cu, cv)]) (fun p => transpose E2 p (t_names t)) = Ok t' /\ same t') /\
      (exists v' t', multiple E1 v (as_scalars of_real sing) cv dv false = Ok v' /\
         bind (contract E2 J u v' [(cu, cv)]) (fun p => transpose E2 p (t_names t)) = Ok t' /\ same t')).
Proof. exact @svd_reconstructs. Qed.
Print Assumptions C71_svd_product.

(** ** C72.  The edges of the factors; the spectrum has, for every charge of the new edge of U, as many values as that charge has
    indices, in descending order and none negative *)
Theorem C72_svd_shape :
  forall (S R V : Type) (SS : Sym S) (SL : SymLaws S) (RR : Scalar R), exact_arithmetic R -> associative_product R ->
  forall (of_real : V -> R) (vzero : V) (greater : V -> V -> bool) (gesvd : nat -> nat -> list R -> bool * (list V * list R * list R)),
  svd_sound of_real vzero greater gesvd ->
  forall (E : @env R) (vjunk : V) (I : svd_names) (t : tensor S R) (free : list nat) (cu cv : nat),
  wf_tensor t -> i_svd_u I <> i_svd_v I -> cu <> i_svd_u I -> cv <> i_svd_v I -> ~ In cu (u_legs free t) -> ~ In cv (v_legs free t) ->
  (@is_fermi S SS = true -> group_arrow_known (env_arrow E) t (u_legs free t) /\ group_arrow_known (env_arrow E) t (v_legs free t)) ->
  exists u v sing w, svd gesvd vzero greater E vjunk I t free cu cv None = Ok (u, sing, v, w) /\ (w = true -> ~ svd_never_fails gesvd) /\
    wf_tensor u /\ wf_tensor v /\ t_names u = u_legs free t ++ [cu] /\ t_names v = cv :: v_legs free t /\
    (forall n, In n (u_legs free t) -> emap (edge_named (legs_of u) n) = emap (edge_named (legs_of t) n)) /\
    (forall n, In n (v_legs free t) -> emap (edge_named (legs_of v) n) = emap (edge_named (legs_of t) n)) /\
    (forall s d, In (s, d) (emap (edge_named (legs_of u) cu)) <->
      has_charge t (u_legs free t) (sneg s) /\ has_charge t (v_legs free t) s /\
      d = Nat.min (fused_dim t (u_legs free t) (sneg s)) (fused_dim t (v_legs free t) s)) /\
    (forall s d, In (s, d) (emap (edge_named (legs_of v) cv)) <-> In (sneg s, d) (emap (edge_named (legs_of u) cu))) /\
    (@is_fermi S SS = true -> earrow (edge_named (legs_of u) cu) = true /\ earrow (edge_named (legs_of v) cv) = false) /\
    map (fun sl => (fst sl, length (snd sl))) sing = emap (edge_named (legs_of u) cu) /\
    (w = false -> forall s l, In (s, l) sing -> descending greater l /\ forall x, In x l -> greater vzero x = false).
Proof. exact @svd_shape. Qed.
Print Assumptions C72_svd_shape.

Theorem C72_svd_orthonormal :
  forall (S R V : Type) (SS : Sym S) (SL : SymLaws S) (RR : Scalar R), exact_arithmetic R -> associative_product R ->
  forall (of_real : V -> R) (vzero : V) (greater : V -> V -> bool) (gesvd : nat -> nat -> list R -> bool * (list V * list R * list R)),
  svd_sound of_real vzero greater gesvd ->
  forall (E : @env R) (vjunk : V) (I : svd_names) (t : tensor S R) (free : list nat) (cu cv : nat),
  wf_tensor t -> i_svd_u I <> i_svd_v I -> cu <> i_svd_u I -> cv <> i_svd_v I -> ~ In cu (u_legs free t) -> ~ In cv (v_legs free t) ->
  (@is_fermi S SS = true -> group_arrow_known (env_arrow E) t (u_legs free t) /\ group_arrow_known (env_arrow E) t (v_legs free t)) ->
  (@is_fermi S SS = true -> exact_negation R) -> exact_conjugation R ->
  exists u v sing w, svd gesvd vzero greater E vjunk I t free cu cv None = Ok (u, sing, v, w) /\ (w = true -> ~ svd_never_fails gesvd) /\ (w = false ->
    (forall s a s' b, in_range [emap (edge_named (legs_of u) cu)] [(s, a)] -> in_range [emap (edge_named (legs_of u) cu)] [(s', b)] ->
      rsum (map (fun pt => rmul (rconj (element u ((cu, (s, a)) :: combine (u_legs free t) pt))) (element u ((cu, (s', b)) :: combine (u_legs free t) pt)))
             (points (map (fun n => emap (edge_named (legs_of u) n)) (u_legs free t)))) = if eqb s s' then ident a b else rzero) /\
    (forall s a s' b, in_range [emap (edge_named (legs_of v) cv)] [(s, a)] -> in_range [emap (edge_named (legs_of v) cv)] [(s', b)] ->
      rsum (map (fun pt => rmul (rconj (element v ((cv, (s, a)) :: combine (v_legs free t) pt))) (element v ((cv, (s', b)) :: combine (v_legs free t) pt)))
             (points (map (fun n => emap (edge_named (legs_of v) n)) (v_legs free t)))) = if eqb s s' then ident a b else rzero)).
Proof. exact @svd_isometry. Qed.
Print Assumptions C72_svd_orthonormal.

(** ** C73.  Truncation to n values: nothing changes if there are no more than n.  Otherwise, provided that n does not exceed the number
    of positive values, the n largest ones are kept, and the factors are those of the whole decomposition with the new edges shortened
    accordingly.  (More than the number of positive values: see C38) *)
Theorem C73_svd_truncation :
  forall (S R V : Type) (SS : Sym S) (SL : SymLaws S) (RR : Scalar R), exact_arithmetic R -> associative_product R ->
  forall (of_real : V -> R) (vzero : V) (greater : V -> V -> bool) (gesvd : nat -> nat -> list R -> bool * (list V * list R * list R)),
  svd_sound of_real vzero greater gesvd ->
  forall (E : @env R) (vjunk : V) (I : svd_names) (t : tensor S R) (free : list nat) (cu cv : nat),
  wf_tensor t -> i_svd_u I <> i_svd_v I -> cu <> i_svd_u I -> cv <> i_svd_v I -> ~ In cu (u_legs free t) -> ~ In cv (v_legs free t) ->
  (@is_fermi S SS = true -> group_arrow_known (env_arrow E) t (u_legs free t) /\ group_arrow_known (env_arrow E) t (v_legs free t)) ->
  strict_order greater -> forall n,
  exists u v sing w, svd gesvd vzero greater E vjunk I t free cu cv None = Ok (u, sing, v, w) /\ (w = true -> ~ svd_never_fails gesvd) /\
    (sum_nat (map (fun sv => length (snd sv)) sing) <= n -> svd gesvd vzero greater E vjunk I t free cu cv (Some n) = Ok (u, sing, v, w)) /\
    (w = false -> n < sum_nat (map (fun sv => length (snd sv)) sing) -> n <= sum_nat (map (fun sv => positives vzero greater (snd sv)) sing) ->
      exists r u' v', svd gesvd vzero greater E vjunk I t free cu cv (Some n) = Ok (u', prefixes r sing, v', w) /\
        best_selection greater sing n r /\ shortened u u' cu r /\ shortened v v' cv (fun s => r (sneg s))).
Proof. exact @svd_truncates. Qed.
Print Assumptions C73_svd_truncation.

(** An oracle that decomposes diagonal matrices and reports a failure for the others; a fermionic tensor, decomposed with V on the right
    and, since its last edge then belongs to U, with V on the left *)
Definition f71 (z : Z) : fermi16 := to_fermi z.
Definition t71 : tensor fermi16 Z := filled [1; 2; 3]
  [mkEdge true [(f71 0, 1); (f71 1, 1)]; mkEdge false [(f71 (-1), 1); (f71 0, 2)]; mkEdge true [(f71 0, 2); (f71 1, 2)]]
  (fun k i => nth i (if eqb k [f71 0; f71 0; f71 0] then [-7; 0; 0; 3]%Z else if eqb k [f71 0; f71 (-1); f71 1] then [5; 0]%Z else [0; 0]%Z) 0%Z).
Definition I71 : svd_names := mkSvdNames 201 202.
Definition J71 : internal := mkInternal 101 102 103 104 105 106.
Definition run71 (free : list nat) (cut : option nat) := svd zsvd 0%Z zgreater exE (-9)%Z I71 t71 free 8 9 cut.
Definition again71 (free : list nat) : res (list (list fermi16 * list Z)) :=
  bind (run71 free None) (fun o => let '(u, s, v, w) := o in
  bind (multiple exE u (as_scalars (fun x => x) s) 8 "u"%char false) (fun u =>
  bind (contract exE J71 u v [(8, 9)]) (fun p => bind (transpose exE p [1; 2; 3]) (fun r => Ok (t_blocks r))))).
Definition report71 (o : tensor fermi16 Z * list (fermi16 * list Z) * tensor fermi16 Z * bool) :=
  let '(u, s, v, w) := o in Ok (t_names u, map snd (t_blocks u), map snd s, t_names v, map snd (t_blocks v), w).
Example C71_example : exact_arithmetic Z /\ associative_product Z /\ exact_negation Z /\ exact_conjugation Z /\ strict_order zgreater /\ svd_sound (fun x => x) 0%Z zgreater zsvd /\
  wf_tensor t71 /\ t_blocks t71 <> [] /\ dir_of "u"%char = Some false /\ dir_of "v"%char = Some true /\
  (u_legs [2] t71 = [2] /\ v_legs [2] t71 = [1; 3]) /\ (u_legs [3] t71 = [3] /\ v_legs [3] t71 = [1; 2]) /\
  (group_arrow_known None t71 [2] /\ group_arrow_known None t71 [1; 3]) /\ (group_arrow_known None t71 [3] /\ group_arrow_known None t71 [1; 2]) /\
  again71 [2] = Ok (t_blocks t71) /\ again71 [3] = Ok (t_blocks t71).
Proof.
  split; [exact exact_Z|]. split; [exact associative_Z|]. split; [exact negation_Z|]. split; [exact conjugation_Z|]. split; [exact zgreater_order|]. split; [exact zsvd_sound|]. split; [now apply (filled_wf _ _ _ _ _)|].
  split; [discriminate|]. split; [reflexivity|]. split; [reflexivity|]. split; [split; vm_compute; reflexivity|]. split; [split; vm_compute; reflexivity|].
  split; [split; right; right; [exists 2|exists 1]; (split; [now left|vm_compute; reflexivity])|].
  split; [split; right; right; [exists 3|exists 1]; (split; [now left|vm_compute; reflexivity])|].
  split; vm_compute; reflexivity.
Qed.
(** the whole decompositions, and truncations to two and to one value *)
Example C72_C73_example :
  bind (run71 [2] None) report71 = Ok ([2; 8], [[1]; [1; 0; 0; 1]]%Z, [[7; 3]; [5]]%Z, [9; 1; 3], [[1; 0]; [0; 0]; [-1; 0; 0; 1]]%Z, false) /\
  bind (run71 [2] (Some 2)) report71 = Ok ([2; 8], [[1]; [1; 0]]%Z, [[7]; [5]]%Z, [9; 1; 3], [[1; 0]; [0; 0]; [-1; 0]]%Z, false) /\
  bind (run71 [3] None) report71 = Ok ([3; 8], [[1; 0; 0; 1]; [1; 0]]%Z, [[5]; [7; 3]]%Z, [9; 1; 2], [[-1; 0; 0; 1]; [0; 0]; [-1]]%Z, false) /\
  bind (run71 [3] (Some 1)) report71 = Ok ([3; 8], [[1; 0]]%Z, [[7]]%Z, [9; 1; 2], [[-1; 0]; [0]]%Z, false).
Proof. split; [vm_compute; reflexivity|]. split; [vm_compute; reflexivity|]. split; vm_compute; reflexivity. Qed.

(** ** C74 is false: a result of svd need not be a decomposition.  LAPACK reports a failure for this matrix; svd returns normally, with
    factors whose product is not the tensor.  (The only sign is a message printed to stderr) *)
Definition e74 : edge unit := mkEdge false [(tt, 2)].
Theorem C74_svd_failure_refuted :
  ~ forall (gesvd : nat -> nat -> list Z -> bool * (list Z * list Z * list Z)), svd_sound (fun x => x) 0%Z zgreater gesvd ->
    forall (t : tensor unit Z), wf_tensor t -> forall u sing v w, svd gesvd 0%Z zgreater exE 0%Z I71 t [1] 8 9 None = Ok (u, sing, v, w) ->
    forall u' p, multiple exE u (as_scalars (fun x => x) sing) 8 "u"%char false = Ok u' -> contract exE J71 u' v [(8, 9)] = Ok p -> t_blocks p = t_blocks t.
Proof.
  intro H. pose (t := filled [1; 2] [e74; e74] (fun _ i => nth i [1; 2; 3; 4]%Z 0%Z)).
  assert (W : wf_tensor t) by now apply (filled_wf _ _ _ _ _).
  assert (Q : exists o, svd zsvd 0%Z zgreater exE 0%Z I71 t [1] 8 9 None = Ok o /\ let '(u, sing, v, w) := o in exists u' p,
    multiple exE u (as_scalars (fun x => x) sing) 8 "u"%char false = Ok u' /\ contract exE J71 u' v [(8, 9)] = Ok p /\ map snd (t_blocks p) = [[0; 0; 0; 0]]%Z).
  { eexists. split; [vm_compute; reflexivity|]. cbv iota beta. eexists. eexists. split; [vm_compute; reflexivity|]. split; vm_compute; reflexivity. }
  destruct Q as [[[[u sing] v] w] [Q1 [u' [p [Q2 [Q3 Q4]]]]]]. specialize (H zsvd zsvd_sound t W u sing v w Q1 u' p Q2 Q3). rewrite H in Q4. vm_compute in Q4. discriminate.
Qed.
Print Assumptions C74_svd_failure_refuted.
