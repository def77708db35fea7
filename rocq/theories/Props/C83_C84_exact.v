(** C83: expectation values observed on an exact lattice.  C84: the imaginary time evolution of an exact lattice.
    [component v s]: the element of the vector for the configuration s (Spec/ExactState.v); [applied d ps A f]: the operator A on the sites ps
    applied to the wave function f; [energy_of]: the sum over the terms; [overlap f g]: the sum of conj(f(s)) g(s) over all configurations;
    [bilinear f g]: the sum without the conjugate; [shifted_times a k f]: (a - H)^k f; [largest f l]: l is the largest modulus of f
    (Spec/ExactOperator.v).  Exact arithmetic. *)
From Coq Require Import String Ascii List Bool Arith ZArith QArith Qcanon Lia.
From Verif Require Import Base.Outcome Base.SMap Model.Symmetry Model.Edge Model.Core Model.EdgeOperator Model.Contract Model.Auxiliaries Model.Spins Model.SimpleTensor Model.Exact
  Spec.Contract Spec.Plain Spec.Grid Spec.Truncate Spec.Svd Spec.ExactState Spec.ExactOperator Proof.ExactApply Proof.ExactObserve Proof.ScalarQ Proof.ExFilled Proof.ExExact Proof.ExObserve.
From Coq Require Qcabs.
Import ListNotations.
Local Open Scope nat_scope.

(** ** C83 *)
(** an operator applied to the vector *)
Theorem C83_applied :
  forall (R : Type) (RR : Scalar R), exact_arithmetic R ->
  forall (E : @env R) (J : internal), NoDup [i_contract_0 J; i_contract_1 J; i_contract_2 J] ->
  forall (M N d : nat) (ps : list (nat * nat)) (A : tensor unit R), on_lattice M N ps -> fits_operator (length ps) d A ->
  forall v, exact_state M N d v -> exists w, apply_term E J v ps A = Ok w /\ exact_state M N d w /\
    forall s, spins_within M N d s -> component M N w s = applied d ps A (component M N v) s.
Proof. exact @apply_term_ok. Qed.
Print Assumptions C83_applied.

(** real scalars; missing: complex scalars, for which the statement is false *)
Theorem C83_observe_partial :
  forall (R V : Type) (RR : Scalar R), exact_arithmetic R ->
  forall (E : @env R) (J : internal), NoDup [i_contract_0 J; i_contract_1 J; i_contract_2 J] ->
  forall (M N d : nat) (vdiv : V -> V -> V) (to_real : R -> V), (forall x : R, rconj x = x) ->
  forall (v : tensor unit R) (ps : list (nat * nat)) (A : tensor unit R), exact_state M N d v -> on_lattice M N ps -> fits_operator (length ps) d A ->
  denominator E J to_real v = Ok (to_real (overlap M N d (component M N v) (component M N v))) /\
  observe E J vdiv to_real v ps A true =
    Ok (vdiv (to_real (overlap M N d (component M N v) (applied d ps A (component M N v)))) (to_real (overlap M N d (component M N v) (component M N v)))).
Proof. exact @observe_real. Qed.
Print Assumptions C83_observe_partial.

Theorem C83_energy_partial :
  forall (R V : Type) (RR : Scalar R), exact_arithmetic R ->
  forall (E : @env R) (J : internal), NoDup [i_contract_0 J; i_contract_1 J; i_contract_2 J] ->
  forall (M N d : nat) (vzero : V) (vadd vdiv : V -> V -> V) (of_nat : nat -> V) (to_real : R -> V), distributive_product R ->
  (forall x y : R, to_real (radd x y) = vadd (to_real x) (to_real y)) -> to_real rzero = vzero -> (forall x : R, rconj x = x) ->
  forall (v : tensor unit R) (terms : list (list (nat * nat) * tensor unit R)), exact_state M N d v -> proper_terms M N d terms ->
  observe_energy E J vzero vadd vdiv of_nat to_real M N v terms =
    Ok (vdiv (vdiv (to_real (overlap M N d (component M N v) (energy_of d terms (component M N v)))) (to_real (overlap M N d (component M N v) (component M N v)))) (of_nat (M * N))).
Proof. exact @energy_real. Qed.
Print Assumptions C83_energy_partial.

(** any scalars: the sums without the conjugate *)
Theorem C83_observe_bilinear :
  forall (R V : Type) (RR : Scalar R), exact_arithmetic R ->
  forall (E : @env R) (J : internal), NoDup [i_contract_0 J; i_contract_1 J; i_contract_2 J] ->
  forall (M N d : nat) (vdiv : V -> V -> V) (to_real : R -> V)
  (v : tensor unit R) (ps : list (nat * nat)) (A : tensor unit R) (calc : bool), exact_state M N d v -> on_lattice M N ps -> fits_operator (length ps) d A ->
  observe E J vdiv to_real v ps A calc =
    Ok (if calc then vdiv (to_real (bilinear M N d (applied d ps A (component M N v)) (component M N v))) (to_real (bilinear M N d (component M N v) (component M N v)))
        else to_real (bilinear M N d (applied d ps A (component M N v)) (component M N v))).
Proof. exact @observe_ok. Qed.
Print Assumptions C83_observe_bilinear.

Definition J83 := mkInternal 1 2 3 5 6 7.
(** the vector (1, 2 i) of one site and the projection onto spin 0: the code finds -1/3, the expectation value is 1/5 *)
Definition v83c : tensor unit cplx := vector83 1 (fun p => match p with 0 => (1%Qc, 0%Qc) | _ => (0%Qc, q_int 2) end).
Definition p83c : tensor unit cplx := operator83 1 (fun p => match p with 0 => (1%Qc, 0%Qc) | _ => (0%Qc, 0%Qc) end).
Theorem C83_observe_refuted :
  ~ forall (R V : Type) (RR : Scalar R), exact_arithmetic R ->
    forall (E : @env R) (J : internal), NoDup [i_contract_0 J; i_contract_1 J; i_contract_2 J] ->
    forall (M N d : nat) (vdiv : V -> V -> V) (to_real : R -> V)
    (v : tensor unit R) (ps : list (nat * nat)) (A : tensor unit R), exact_state M N d v -> on_lattice M N ps -> fits_operator (length ps) d A ->
    observe E J vdiv to_real v ps A true =
      Ok (vdiv (to_real (overlap M N d (component M N v) (applied d ps A (component M N v)))) (to_real (overlap M N d (component M N v) (component M N v)))).
Proof.
  intro C. specialize (C cplx Qc _ c_exact c_env J83 ltac:(repeat constructor; cbn; intuition discriminate) 1 1 2 Qcdiv fst v83c [(0, 0)] p83c
    (vector83_ok _ _ 1 _ ltac:(lia)) (proj2 (proj2 on_two)) (operator83_ok _ _ 1 _ ltac:(cbn; lia))).
  assert (Q : match observe c_env J83 Qcdiv fst v83c [(0, 0)] p83c true with Ok x => Some (this x) | _ => None end = Some ((-1) # 3)%Q) by (vm_compute; reflexivity).
  rewrite C in Q. vm_compute in Q. discriminate Q.
Qed.
Print Assumptions C83_observe_refuted.
Example C83_complex_example :
  match observe c_env J83 Qcdiv fst v83c [(0, 0)] p83c true with Ok x => Some (this x) | _ => None end = Some ((-1) # 3)%Q /\
  this (fst (overlap 1 1 2 (component 1 1 v83c) (applied 2 [(0%nat, 0%nat)] p83c (component 1 1 v83c))) / fst (overlap 1 1 2 (component 1 1 v83c) (component 1 1 v83c)))%Qc = (1 # 5)%Q.
Proof. split; vm_compute; reflexivity. Qed.

(** ** C84 *)
Theorem C84_step :
  forall (R V : Type) (RR : Scalar R), exact_arithmetic R ->
  forall (E : @env R) (J : internal), NoDup [i_contract_0 J; i_contract_1 J; i_contract_2 J] ->
  forall (vzero : V) (greater : V -> V -> bool) (of_real : V -> R) (abs : R -> V) (vsub : V -> V -> V), modulus vzero greater of_real abs ->
  forall (M N d : nat) (terms : list (list (nat * nat) * tensor unit R)), proper_terms M N d terms ->
  forall (a : V) (v : tensor unit R), exact_state M N d v ->
  let f := shifted d (of_real a) terms (component M N v) in
  exists v' n, update_step E J vzero greater of_real abs vsub a terms v = Ok (v', vsub a n) /\ exact_state M N d v' /\ largest M N d vzero greater abs f n /\
    (of_real n <> rzero \/ forall s, spins_within M N d s -> f s = rzero) /\ greater vzero n = false /\
    forall s, spins_within M N d s -> component M N v' s = rdiv (f s) (of_real n).
Proof. exact @step_ok. Qed.
Print Assumptions C84_step.

Theorem C84_evolution :
  forall (R V : Type) (RR : Scalar R), exact_arithmetic R ->
  forall (E : @env R) (J : internal), NoDup [i_contract_0 J; i_contract_1 J; i_contract_2 J] ->
  forall (vzero : V) (greater : V -> V -> bool) (of_real : V -> R) (abs : R -> V) (vsub vmul vdiv : V -> V -> V) (vabs : V -> V) (of_nat : nat -> V), modulus vzero greater of_real abs ->
  forall (M N d : nat) (terms : list (list (nat * nat) * tensor unit R)), proper_terms M N d terms ->
  associative_product R -> distributive_product R -> subtracting R -> dividing R ->
  forall (k : nat) (approximate_energy : V) (v : tensor unit R), exact_state M N d v ->
  let a := vmul (vmul (vabs approximate_energy) (of_nat M)) (of_nat N) in
  let f := shifted_times d (of_real a) terms k (component M N v) in
  exists v' e, exact_update E J vzero greater of_real abs vsub vmul vdiv vabs of_nat M N k approximate_energy terms v = Ok (v', e) /\ exact_state M N d v' /\
    (not_zero M N d f -> proportional M N d f v').
Proof. exact @update_ok. Qed.
Print Assumptions C84_evolution.

(** the energy reported for an eigenvector; missing: eigenvalues above the shift, for which the statement is false *)
Theorem C84_energy_partial :
  forall (R V : Type) (RR : Scalar R), exact_arithmetic R ->
  forall (E : @env R) (J : internal), NoDup [i_contract_0 J; i_contract_1 J; i_contract_2 J] ->
  forall (vzero : V) (greater : V -> V -> bool) (of_real : V -> R) (abs : R -> V) (vsub vmul vdiv : V -> V -> V) (vabs : V -> V) (of_nat : nat -> V), modulus vzero greater of_real abs ->
  forall (M N d : nat) (terms : list (list (nat * nat) * tensor unit R)), proper_terms M N d terms ->
  associative_product R -> distributive_product R -> subtracting R -> dividing R ->
  forall vone : V, multiplicative_modulus vzero vone vmul greater of_real abs -> real_difference vzero vsub greater of_real abs ->
  forall (k : nat) (approximate_energy e : V) (v : tensor unit R), exact_state M N d v -> largest M N d vzero greater abs (component M N v) vone ->
  (forall s, spins_within M N d s -> energy_of d terms (component M N v) s = rmul (of_real e) (component M N v s)) ->
  greater (vmul (vmul (vabs approximate_energy) (of_nat M)) (of_nat N)) e = true ->
  exists v', exact_update E J vzero greater of_real abs vsub vmul vdiv vabs of_nat M N (S k) approximate_energy terms v = Ok (v', vdiv e (of_nat (M * N))) /\ exact_state M N d v' /\
    largest M N d vzero greater abs (component M N v') vone /\ (forall s, spins_within M N d s -> energy_of d terms (component M N v') s = rmul (of_real e) (component M N v' s)).
Proof. exact @update_energy. Qed.
Print Assumptions C84_energy_partial.

(** the energy reported for an eigenvector in general: a - |a - e| *)
Theorem C84_energy_reported :
  forall (R V : Type) (RR : Scalar R), exact_arithmetic R ->
  forall (E : @env R) (J : internal), NoDup [i_contract_0 J; i_contract_1 J; i_contract_2 J] ->
  forall (vzero : V) (greater : V -> V -> bool) (of_real : V -> R) (abs : R -> V) (vsub vmul vdiv : V -> V -> V) (vabs : V -> V) (of_nat : nat -> V), modulus vzero greater of_real abs ->
  forall (M N d : nat) (terms : list (list (nat * nat) * tensor unit R)), proper_terms M N d terms ->
  associative_product R -> distributive_product R -> subtracting R -> dividing R ->
  forall vone : V, multiplicative_modulus vzero vone vmul greater of_real abs ->
  forall (k : nat) (approximate_energy : V) (e : R) (v : tensor unit R), exact_state M N d v -> largest M N d vzero greater abs (component M N v) vone ->
  (forall s, spins_within M N d s -> energy_of d terms (component M N v) s = rmul e (component M N v s)) ->
  let a := vmul (vmul (vabs approximate_energy) (of_nat M)) (of_nat N) in
  greater (abs (rsub (of_real a) e)) vzero = true ->
  exists v', exact_update E J vzero greater of_real abs vsub vmul vdiv vabs of_nat M N (S k) approximate_energy terms v = Ok (v', vdiv (vsub a (abs (rsub (of_real a) e))) (of_nat (M * N))) /\ exact_state M N d v' /\
    largest M N d vzero greater abs (component M N v') vone /\ (forall s, spins_within M N d s -> energy_of d terms (component M N v') s = rmul e (component M N v' s)).
Proof. exact @update_eigen. Qed.
Print Assumptions C84_energy_reported.

(** ** a row of two sites, rational numbers *)
Definition v83 : tensor unit Qc := vector83 2 (fun p => q_int (nth p [1; 3; -2; 5]%Z 0%Z)).
Definition a83 : tensor unit Qc := operator83 2 (fun p => q_int (Z.of_nat (p * p) - 17)).
Definition of_nat83 (n : nat) : Qc := q_int (Z.of_nat n).
Definition terms83 : list (list (nat * nat) * tensor unit Qc) := [([(0, 1); (0, 0)], a83); ([(0, 0)], operator83 1 (fun p => q_int (Z.of_nat p)))].
Example C83_hypotheses : exact_arithmetic Qc /\ distributive_product Qc /\ NoDup [i_contract_0 J83; i_contract_1 J83; i_contract_2 J83] /\ (forall x : Qc, rconj x = x) /\
  exact_state 1 2 2 v83 /\ on_lattice 1 2 [(0, 1); (0, 0)] /\ fits_operator (length [(0, 1); (0, 0)]) 2 a83 /\ proper_terms 1 2 2 terms83.
Proof.
  split; [exact q_exact|]. split; [exact q_distr|]. split; [repeat constructor; cbn; intuition discriminate|]. split; [reflexivity|]. split; [apply vector83_ok; lia|].
  split; [apply on_two|]. split; [apply operator83_ok; cbn; lia|]. constructor; [split; [apply on_two|apply operator83_ok; cbn; lia]|]. constructor; [split; [apply on_two|apply operator83_ok; cbn; lia]|constructor].
Qed.
Definition shown {A : Type} (r : res A) (f : A -> Q) : option Q := match r with Ok x => Some (f x) | _ => None end.
Example C83_example :
  shown (observe eq_env J83 Qcdiv (fun x => x) v83 [(0, 1); (0, 0)] a83 true) this = Some (8600 # 39)%Q /\
  this (overlap 1 2 2 (component 1 2 v83) (applied 2 [(0%nat, 1%nat); (0%nat, 0%nat)] a83 (component 1 2 v83)) / overlap 1 2 2 (component 1 2 v83) (component 1 2 v83))%Qc = (8600 # 39)%Q /\
  shown (observe_energy eq_env J83 0%Qc Qcplus Qcdiv of_nat83 (fun x => x) 1 2 v83 terms83) this = Some (4363 # 39)%Q.
Proof. repeat split; vm_compute; reflexivity. Qed.

Definition update83 (k : nat) (approx : Qc) (ts : list (list (nat * nat) * tensor unit Qc)) (v : tensor unit Qc) :=
  exact_update eq_env J83 0%Qc qgreater (fun x => x) Qcabs.Qcabs Qcminus Qcmult Qcdiv Qcabs.Qcabs of_nat83 1 2 k approx ts v.
(** spin 0 of site (0, 0) has energy -1, spin 1 has energy 3 *)
Definition field84 : list (list (nat * nat) * tensor unit Qc) := [([(0, 0)], operator83 1 (fun p => q_int (nth p [-1; 0; 0; 3]%Z 0%Z)))].
Definition low84 : tensor unit Qc := vector83 2 (fun p => q_int (nth p [0; 1; 0; 0]%Z 0%Z)).
Definition high84 : tensor unit Qc := vector83 2 (fun p => q_int (nth p [0; 0; 1; 0]%Z 0%Z)).
Lemma two_spins : forall s, spins_within 1 2 2 s -> (s 0 0 = 0 \/ s 0 0 = 1) /\ (s 0 1 = 0 \/ s 0 1 = 1).
Proof. intros s H. pose proof (H 0 0 ltac:(lia) ltac:(lia)). pose proof (H 0 1 ltac:(lia) ltac:(lia)). lia. Qed.
Lemma eigen84 : forall v e, In (v, e) [(low84, q_int (-1)); (high84, q_int 3)] ->
  forall s, spins_within 1 2 2 s -> energy_of 2 field84 (component 1 2 v) s = rmul e (component 1 2 v s).
Proof.
  intros v e Hv s Hs. destruct (two_spins s Hs) as [A B]. unfold energy_of, applied, spins_put, component. cbn [map field84 fst snd Datatypes.length sites flat_map seq repeat Sums app combine find pair_eqb Nat.eqb andb].
  destruct Hv as [Hv|[Hv|[]]]; injection Hv as <- <-; destruct A as [-> | ->], B as [-> | ->]; apply Qc_is_canon; vm_compute; reflexivity.
Qed.
Lemma largest84 : forall v, In v [low84; high84] -> largest 1 2 2 0%Qc qgreater Qcabs.Qcabs (component 1 2 v) 1%Qc.
Proof.
  intros v Hv. split.
  - intros s Hs. destruct (two_spins s Hs) as [A B]. unfold component. cbn [map sites flat_map seq app fst snd]. destruct Hv as [<-|[<-|[]]]; destruct A as [-> | ->], B as [-> | ->]; vm_compute; reflexivity.
  - right. destruct Hv as [<-|[<-|[]]]; [exists (fun i j => j)|exists (fun i j => 1 - j)]; (split; [intros [|i] [|[|j]] Hi Hj; cbn; lia|]); apply Qc_is_canon; vm_compute; reflexivity.
Qed.
Example C84_hypotheses : modulus 0%Qc qgreater (fun x => x) Qcabs.Qcabs /\ proper_terms 1 2 2 field84 /\ associative_product Qc /\ distributive_product Qc /\ subtracting Qc /\ dividing Qc /\
  multiplicative_modulus 0%Qc 1%Qc Qcmult qgreater (fun x => x) Qcabs.Qcabs /\ real_difference 0%Qc Qcminus qgreater (fun x => x) Qcabs.Qcabs /\ exact_state 1 2 2 low84 /\
  largest 1 2 2 0%Qc qgreater Qcabs.Qcabs (component 1 2 low84) 1%Qc /\ (forall s, spins_within 1 2 2 s -> energy_of 2 field84 (component 1 2 low84) s = rmul (q_int (-1)) (component 1 2 low84 s)) /\
  qgreater (Qcabs.Qcabs (q_int (-1)) * of_nat83 1 * of_nat83 2)%Qc (q_int (-1)) = true.
Proof.
  split; [exact q_modulus|]. split; [constructor; [split; [apply on_two|apply operator83_ok; cbn; lia]|constructor]|]. split; [exact q_assoc|]. split; [exact q_distr|]. split; [exact q_sub|]. split; [exact q_dividing|].
  split; [exact q_multiplicative|]. split; [exact q_difference|]. split; [apply vector83_ok; lia|]. split; [apply largest84; now left|]. split; [apply eigen84; now left|]. vm_compute. reflexivity.
Qed.
(** the energy of an eigenvector; two steps of evolution: the ratio of two components and of (a - H)^2 v *)
Definition ratio84 (f : (nat -> nat -> nat) -> Qc) : Q := this (Qcdiv (f (fun i j => j)) (f (fun i j => 1 - j))).
Example C84_example :
  shown (update83 3 (q_int (-1)) field84 low84) (fun ve => this (snd ve)) = Some ((-1) # 2)%Q /\
  shown (update83 2 (q_int (-7)) terms83 v83) (fun ve => ratio84 (component 1 2 (fst ve))) = Some (ratio84 (shifted_times 2 (q_int 14) terms83 2 (component 1 2 v83))) /\
  ratio84 (shifted_times 2 (q_int 14) terms83 2 (component 1 2 v83)) = (303735 # 240586)%Q.
Proof. repeat split; vm_compute; reflexivity. Qed.
(** an eigenvalue above the shift: 3 instead of 2; the energy reported is 1/2 for each site, not 3/2 *)
Theorem C84_energy_refuted :
  ~ forall (R V : Type) (RR : Scalar R), exact_arithmetic R ->
    forall (E : @env R) (J : internal), NoDup [i_contract_0 J; i_contract_1 J; i_contract_2 J] ->
    forall (vzero : V) (greater : V -> V -> bool) (of_real : V -> R) (abs : R -> V) (vsub vmul vdiv : V -> V -> V) (vabs : V -> V) (of_nat : nat -> V), modulus vzero greater of_real abs ->
    forall (M N d : nat) (terms : list (list (nat * nat) * tensor unit R)), proper_terms M N d terms ->
    associative_product R -> distributive_product R -> subtracting R -> dividing R ->
    forall vone : V, multiplicative_modulus vzero vone vmul greater of_real abs -> real_difference vzero vsub greater of_real abs ->
    forall (k : nat) (approximate_energy e : V) (v : tensor unit R), exact_state M N d v -> largest M N d vzero greater abs (component M N v) vone ->
    (forall s, spins_within M N d s -> energy_of d terms (component M N v) s = rmul (of_real e) (component M N v s)) ->
    exists v', exact_update E J vzero greater of_real abs vsub vmul vdiv vabs of_nat M N (S k) approximate_energy terms v = Ok (v', vdiv e (of_nat (M * N))).
Proof.
  intro C. specialize (C Qc Qc _ q_exact eq_env J83 ltac:(repeat constructor; cbn; intuition discriminate) 0%Qc qgreater (fun x => x) Qcabs.Qcabs Qcminus Qcmult Qcdiv Qcabs.Qcabs of_nat83 q_modulus 1 2 2 field84
    (proj1 (proj2 C84_hypotheses)) q_assoc q_distr q_sub q_dividing 1%Qc q_multiplicative q_difference 2 (q_int (-1)) (q_int 3) high84
    (vector83_ok Qc _ 2 _ ltac:(lia)) (largest84 high84 ltac:(right; now left))). cbv beta in C.
  destruct (C (eigen84 high84 (q_int 3) ltac:(right; now left))) as [v' H].
  assert (Q : shown (update83 3 (q_int (-1)) field84 high84) (fun ve => this (snd ve)) = Some (1 # 2)%Q) by (vm_compute; reflexivity).
  assert (Q' : shown (update83 3 (q_int (-1)) field84 high84) (fun ve => this (snd ve)) = Some (this (q_int 3 / of_nat83 (1 * 2))%Qc)).
  { unfold update83. apply (f_equal (fun r => shown r (fun ve => this (snd ve)))) in H. exact H. }
  rewrite Q in Q'. vm_compute in Q'. discriminate Q'.
Qed.
Print Assumptions C84_energy_refuted.
