(** C85: one step of the simple update applies the operator of a term to the wave function of the lattice.  C86: the order of the positions.
    [holds_multiple f dim T x]: the sites of the lattice x are the tensors T, its bonds have the dimensions dim, its environments are on bonds
    and fit, and f is a multiple of the contraction of the sites with the environments as weights of the bonds; [applied d ps U f]: the
    operator U on the sites ps applied to f; [weights_around]: no environment of another bond of the two sites is zero; [unless_reported]:
    LAPACK may fail, then an exception is thrown or a message printed; [all_updated]: several terms one after the other (Spec/LocalUpdate.v).
    Exact arithmetic. *)
From Coq Require Import String Ascii List Bool Arith ZArith QArith Qcanon Lia.
From Verif Require Import Base.Outcome Base.SMap Model.Symmetry Model.Edge Model.Core Model.EdgeOperator Model.Contract Model.Qr Model.Svd Model.Auxiliaries Model.Spins Model.SimpleTensor
  Spec.Contract Spec.Plain Spec.Lapack Spec.Grid Spec.SquareLattice Spec.Truncate Spec.Svd Spec.ExactState Spec.WeightedLattice Spec.ExactOperator Spec.LocalUpdate Proof.TermSite Proof.ScalarQ Proof.ExExact Proof.ExObserve Proof.ExTerm.
From Verif Require Model.SimpleUpdate.
From Coq Require Qcabs.
Import ListNotations.
Local Open Scope nat_scope.

(** ** C85 *)
(** two neighbours, the left or the upper one first; [cut]: dimension_virtual, large enough for no singular value to be left out *)
Theorem C85_bond :
  forall (R V : Type) (RR : Scalar R), exact_arithmetic R -> associative_product R -> distributive_product R -> dividing R ->
  forall (E : @env R) (J : internal) (Iq : qr_names) (Is : svd_names), NoDup [i_contract_0 J; i_contract_1 J; i_contract_2 J] -> own_names Iq Is ->
  forall (L : qr_lapack R) (gesvd : nat -> nat -> list R -> bool * (list V * list R * list R)) (vzero vjunk : V) (greater : V -> V -> bool)
    (of_real : V -> R) (abs : R -> V) (vabs : V -> V) (vdiv : V -> V -> V),
  qr_sound L -> svd_sound of_real vzero greater gesvd -> modulus vzero greater of_real abs -> real_division vzero greater of_real vabs vdiv ->
  forall (M N d cut : nat) (b : bond) (U : tensor unit R) (f : (nat -> nat -> nat) -> R) (dim : bond -> nat) (T : nat -> nat -> tensor unit R)
    (x : SimpleUpdate.network (res (tensor unit R)) (res (list (unit * list V)))),
  In b (bonds M N) -> fits_operator 2 d U -> holds_multiple M N d of_real f dim T x -> weights_around M N dim (weight_on of_real x) b -> d * d * dim b <= cut ->
  unless_reported L gesvd (fun x' => exists dim' T', holds_multiple M N d of_real (applied d [first_site b; second_site b] U f) dim' T' x')
    (term_result E J Iq Is L gesvd vzero vjunk greater of_real abs vabs vdiv cut (map z_site [first_site b; second_site b]) U x).
Proof. exact @bond_term. Qed.
Print Assumptions C85_bond.

(** one site *)
Theorem C85_site :
  forall (R V : Type) (RR : Scalar R), exact_arithmetic R -> associative_product R -> distributive_product R ->
  forall (E : @env R) (J : internal) (Iq : qr_names) (Is : svd_names), NoDup [i_contract_0 J; i_contract_1 J; i_contract_2 J] ->
  forall (L : qr_lapack R) (gesvd : nat -> nat -> list R -> bool * (list V * list R * list R)) (vzero vjunk : V) (greater : V -> V -> bool)
    (of_real : V -> R) (abs : R -> V) (vabs : V -> V) (vdiv : V -> V -> V)
    (M N d cut : nat) (p : nat * nat) (U : tensor unit R) (f : (nat -> nat -> nat) -> R) (dim : bond -> nat) (T : nat -> nat -> tensor unit R)
    (x : SimpleUpdate.network (res (tensor unit R)) (res (list (unit * list V)))),
  fst p < M -> snd p < N -> fits_operator 1 d U -> holds_multiple M N d of_real f dim T x ->
  exists T' x', term_result E J Iq Is L gesvd vzero vjunk greater of_real abs vabs vdiv cut (map z_site [p]) U x = Ok (x', false) /\
    holds_multiple M N d of_real (applied d [p] U f) dim T' x' /\ SimpleUpdate.environment x' = SimpleUpdate.environment x.
Proof. exact @site_term. Qed.
Print Assumptions C85_site.

(** any number of terms one after the other, for which no failure of LAPACK is reported *)
Theorem C85_sequence :
  forall (R V : Type) (RR : Scalar R), exact_arithmetic R -> associative_product R -> distributive_product R -> dividing R ->
  forall (E : @env R) (J : internal) (Iq : qr_names) (Is : svd_names), NoDup [i_contract_0 J; i_contract_1 J; i_contract_2 J] -> own_names Iq Is ->
  forall (L : qr_lapack R) (gesvd : nat -> nat -> list R -> bool * (list V * list R * list R)) (vzero vjunk : V) (greater : V -> V -> bool)
    (of_real : V -> R) (abs : R -> V) (vabs : V -> V) (vdiv : V -> V -> V),
  qr_sound L -> svd_sound of_real vzero greater gesvd -> modulus vzero greater of_real abs -> real_division vzero greater of_real vabs vdiv ->
  forall (M N d cut : nat) (terms : list (list (nat * nat) * tensor unit R)) (f : (nat -> nat -> nat) -> R) (dim : bond -> nat) (T : nat -> nat -> tensor unit R)
    (x x' : SimpleUpdate.network (res (tensor unit R)) (res (list (unit * list V)))),
  holds_multiple M N d of_real f dim T x ->
  all_updated M N d cut of_real (fun ps U x => term_result E J Iq Is L gesvd vzero vjunk greater of_real abs vabs vdiv cut (map z_site ps) U x) terms x x' ->
  exists dim' T', holds_multiple M N d of_real (applied_all d terms f) dim' T' x'.
Proof. exact @all_terms. Qed.
Print Assumptions C85_sequence.

(** ** C86 *)
(** the positions in the other order: the first index of the operator is still that of the left or upper site *)
Theorem C86_reversed :
  forall (R V : Type) (RR : Scalar R), exact_arithmetic R -> associative_product R -> distributive_product R -> dividing R ->
  forall (E : @env R) (J : internal) (Iq : qr_names) (Is : svd_names), NoDup [i_contract_0 J; i_contract_1 J; i_contract_2 J] -> own_names Iq Is ->
  forall (L : qr_lapack R) (gesvd : nat -> nat -> list R -> bool * (list V * list R * list R)) (vzero vjunk : V) (greater : V -> V -> bool)
    (of_real : V -> R) (abs : R -> V) (vabs : V -> V) (vdiv : V -> V -> V),
  qr_sound L -> svd_sound of_real vzero greater gesvd -> modulus vzero greater of_real abs -> real_division vzero greater of_real vabs vdiv ->
  forall (M N d cut : nat) (b : bond) (U : tensor unit R) (f : (nat -> nat -> nat) -> R) (dim : bond -> nat) (T : nat -> nat -> tensor unit R)
    (x : SimpleUpdate.network (res (tensor unit R)) (res (list (unit * list V)))),
  In b (bonds M N) -> fits_operator 2 d U -> holds_multiple M N d of_real f dim T x -> weights_around M N dim (weight_on of_real x) b -> d * d * dim b <= cut ->
  unless_reported L gesvd (fun x' => exists dim' T', holds_multiple M N d of_real (applied d [first_site b; second_site b] U f) dim' T' x')
    (term_result E J Iq Is L gesvd vzero vjunk greater of_real abs vabs vdiv cut (map z_site [second_site b; first_site b]) U x).
Proof. exact @bond_reversed. Qed.
Print Assumptions C86_reversed.

Definition Iq85 := mkQrNames 203 204.
Definition Is85 := mkSvdNames 201 202.
Definition id85 (x : Qc) : Qc := x.
Definition result85 (ps : list (nat * nat)) (U : tensor unit Qc) (x : SimpleUpdate.network (res (tensor unit Qc)) (res (list (unit * list Qc)))) :=
  term_result eq_env J85 Iq85 Is85 qqr qsvd 0%Qc 0%Qc qgreater id85 Qcabs.Qcabs Qcabs.Qcabs Qcdiv 4 (map z_site ps) U x.
Definition wave85 := weighted_wave 1 3 dim85 T85 (weight_on id85 x85).
Definition spins85 (a b : nat) : nat -> nat -> nat := fun _ j => nth j [a; b; 0] 0.

(** rational numbers, a row of three sites with an environment on the second bond, an operator on the first two sites *)
Example C85_hypotheses : exact_arithmetic Qc /\ associative_product Qc /\ distributive_product Qc /\ dividing Qc /\
  NoDup [i_contract_0 J85; i_contract_1 J85; i_contract_2 J85] /\ own_names Iq85 Is85 /\ qr_sound qqr /\ svd_sound id85 0%Qc qgreater qsvd /\
  modulus 0%Qc qgreater id85 Qcabs.Qcabs /\ real_division 0%Qc qgreater id85 Qcabs.Qcabs Qcdiv /\
  In (Right_of 0 0) (bonds 1 3) /\ fits_operator 2 2 U85 /\ holds_multiple 1 3 2 id85 wave85 dim85 T85 x85 /\ weights_around 1 3 dim85 (weight_on id85 x85) (Right_of 0 0) /\ 2 * 2 * dim85 (Right_of 0 0) <= 4.
Proof.
  split; [exact q_exact|]. split; [exact q_assoc|]. split; [exact q_distr|]. split; [exact q_dividing|]. split; [repeat constructor; cbn; intuition discriminate|].
  split; [repeat split; try discriminate; destruct d; discriminate|]. split; [exact qqr_sound|]. split; [exact qsvd_sound|]. split; [exact q_modulus|]. split; [exact q_real|].
  split; [now left|]. split; [apply operator83_ok; lia|]. split; [|split; [exact weights85|now apply Nat.leb_le]].
  split; [exact simple85|]. exists 1%Qc. intros s _. cbn [rmul Scalar_Q]. now rewrite Qcmult_1_l.
Qed.
(** amplitudes before the operator, and what it makes of them; the step gives the environment (1, 2/5) and no failure is reported *)
Example C85_values : map (fun ab => this (wave85 (spins85 (fst ab) (snd ab)))) [(0, 0); (0, 1); (1, 0); (1, 1)] = [9; 18; 9; 18]%Q /\
  map (fun ab => this (applied 2 [(0, 0); (0, 1)] U85 wave85 (spins85 (fst ab) (snd ab)))) [(0, 0); (0, 1); (1, 0); (1, 1)] = [45; 0; 0; 18]%Q.
Proof. now vm_compute. Qed.
Example C85_runs : match result85 [(0, 0); (0, 1)] U85 x85 with
  | Ok (x', false) => map (fun kv => (fst kv, match snd kv with Ok [(tt, l)] => map this l | _ => [] end)) (SimpleUpdate.environment x') = [(bond_key (Right_of 0 0), [1; 2 # 5]); (bond_key (Right_of 0 1), [3])]%Q
  | _ => False
  end.
Proof. now vm_compute. Qed.
(** two terms after one another: the operator on the first two sites, then one on the third site *)
Definition V85 : tensor unit Qc := operator83 1 (fun p => q_int (nth p [0; 1; 1; 0]%Z 0%Z)).
Example C85_sequence_example : exists x', all_updated 1 3 2 4 id85 result85 [([(0, 0); (0, 1)], U85); ([(0, 2)], V85)] x85 x'.
Proof.
  destruct (result85 [(0, 0); (0, 1)] U85 x85) as [[x1 w1]| | |] eqn:E1; try (vm_compute in E1; discriminate E1).
  assert (w1 = false) as -> by (vm_compute in E1; now injection E1).
  destruct (result85 [(0, 2)] V85 x1) as [[x2 w2]| | |] eqn:E2; try (vm_compute in E1; injection E1 as <-; vm_compute in E2; discriminate E2).
  assert (w2 = false) as -> by (vm_compute in E1; injection E1 as <-; vm_compute in E2; now injection E2).
  exists x2. apply updated_one with x1; [|exact E1|apply updated_one with x2; [|exact E2|constructor]].
  - right. exists (Right_of 0 0). split; [reflexivity|]. split; [now left|]. split; [apply operator83_ok; lia|]. intros dim T H. rewrite (dims_unique 1 3 2 x85 dim dim85 T T85 H simple85 (Right_of 0 0)) by now left.
    split; [now apply Nat.leb_le|]. intros b k Hb Hn He Hk. rewrite (dims_unique 1 3 2 x85 dim dim85 T T85 H simple85 b Hb) in Hk. now apply weights85.
  - left. exists (0, 2). split; [reflexivity|]. split; [now apply Nat.ltb_lt|]. split; [now apply Nat.ltb_lt|]. apply operator83_ok. lia.
Qed.

Example C86_runs : match result85 [(0, 1); (0, 0)] U85 x85 with Ok (_, false) => True | _ => False end.
Proof. vm_compute. exact I. Qed.
(** the operator is not applied to the sites in the order of the positions *)
Theorem C86_refuted :
  ~ forall (M N d cut : nat) (b : bond) (U : tensor unit Qc) (f : (nat -> nat -> nat) -> Qc) (dim : bond -> nat) (T : nat -> nat -> tensor unit Qc)
    (x : SimpleUpdate.network (res (tensor unit Qc)) (res (list (unit * list Qc)))),
  In b (bonds M N) -> fits_operator 2 d U -> holds_multiple M N d id85 f dim T x -> weights_around M N dim (weight_on id85 x) b -> d * d * dim b <= cut ->
  unless_reported qqr qsvd (fun x' => exists dim' T', holds_multiple M N d id85 (applied d [second_site b; first_site b] U f) dim' T' x')
    (term_result eq_env J85 Iq85 Is85 qqr qsvd 0%Qc 0%Qc qgreater id85 Qcabs.Qcabs Qcabs.Qcabs Qcdiv cut (map z_site [second_site b; first_site b]) U x).
Proof.
  intro C. destruct C85_hypotheses as [H1 [H2 [H3 [H4 [H5 [H6 [H7 [H8 [H9 [H10 [H11 [H12 [H13 [H14 H15]]]]]]]]]]]]]].
  specialize (C 1 3 2 4 _ _ _ _ _ _ H11 H12 H13 H14 H15).
  assert (D := C86_reversed _ _ _ H1 H2 H3 H4 eq_env J85 Iq85 Is85 H5 H6 qqr qsvd 0%Qc 0%Qc qgreater id85 Qcabs.Qcabs Qcabs.Qcabs Qcdiv H7 H8 H9 H10 1 3 2 4 _ _ _ _ _ _ H11 H12 H13 H14 H15).
  assert (G := C86_runs). unfold result85 in G. cbn [first_site second_site Nat.add] in C, D.
  destruct (term_result _ _ _ _ _ _ _ _ _ _ _ _ _ _ _ _ _) as [[x' [|]]| | |]; try contradiction.
  cbn [unless_reported] in C, D. destruct C as [dim1 [T1 [C1 [c C2]]]]. destruct D as [dim2 [T2 [D1 [e D2]]]].
  assert (W : forall a b, a < 2 -> b < 2 -> spins_within 1 3 2 (spins85 a b)) by (intros a b Ha Hb i [|[|[|j]]] Hi Hj; cbn; lia).
  assert (A1 := C2 (spins85 0 1) (W 0 1 (le_n_S 0 1 (Nat.le_0_l 1)) (le_n 2))). assert (A2 := D2 (spins85 0 0) (W 0 0 (le_n_S 0 1 (Nat.le_0_l 1)) (le_n_S 0 1 (Nat.le_0_l 1)))). assert (A3 := D2 (spins85 0 1) (W 0 1 (le_n_S 0 1 (Nat.le_0_l 1)) (le_n 2))).
  rewrite (wave_unique 1 3 2 x' dim1 dim2 T1 T2 C1 D1) in A1. cbn [rmul Scalar_Q] in A1, A2, A3.
  assert (V1 : this (applied 2 [(0, 1); (0, 0)] U85 wave85 (spins85 0 1)) = (-9)%Q) by now vm_compute.
  assert (V2 : this (applied 2 [(0, 0); (0, 1)] U85 wave85 (spins85 0 0)) = 45%Q) by now vm_compute.
  assert (V3 : applied 2 [(0, 0); (0, 1)] U85 wave85 (spins85 0 1) = 0%Qc) by (apply Qc_is_canon; now vm_compute).
  rewrite V3 in A3. symmetry in A3. apply Qcmult_integral in A3. destruct A3 as [-> |A3].
  - rewrite A2, Qcmult_0_l in V2. discriminate V2.
  - rewrite A1, A3, Qcmult_0_r in V1. discriminate V1.
Qed.
Print Assumptions C86_refuted.
