(** C90: spins and the terms of the Heisenberg model.  [spin_numbers]: the numbers 1/2, -1/2, multiples of i and real parts; [swapped p q s]: the spins s with those of
    the sites p and q exchanged; [spins_down]: how many spins are 1; [in_sector M N k f]: f is zero except where k spins are 1; [site_term], [below_term], [right_term]:
    the positions of terms on sites and bonds of the lattice (Spec/SpinModel.v); [applied d ps A f]: the operator A on the sites ps applied to f; [shifted_times]: a - H
    applied a number of times (Spec/ExactOperator.v).  Exact arithmetic. *)
From Coq Require Import String List Bool Arith ZArith QArith Qcanon Lia.
From Verif Require Import Base.Outcome Base.SMap Model.Symmetry Model.Edge Model.Core Model.EdgeOperator Model.Contract Model.Qr Model.Svd Model.Auxiliaries Model.Spins Model.SimpleTensor Model.Exact Model.NetworkNew Model.SpinOperators
  Spec.Contract Spec.Plain Spec.Lapack Spec.Grid Spec.SquareLattice Spec.SpinLattice Spec.Truncate Spec.Svd Spec.ExactState Spec.WeightedLattice Spec.ExactOperator Spec.LocalUpdate Spec.LatticeLife Spec.SpinModel
  Proof.NewFacts Proof.LatticeLife Proof.Heisenberg Proof.HeisenbergRun Proof.ScalarQ Proof.ExExact Proof.ExObserve Proof.ExTerm.
From Verif Require Model.Schedule Model.Lazy Model.Mpi Model.SimpleUpdate Spec.Bonds Spec.Runs.
From Coq Require Qcabs.
Import ListNotations.
Local Open Scope nat_scope.

(** ** S.S on two sites: half of the exchange of the spins, minus a quarter; the order of the sites does not matter *)
Theorem C90_exchange :
  forall (R C : Type) (RR : Scalar R) (RC : Scalar C), exact_arithmetic R -> associative_product R -> distributive_product R -> exact_arithmetic C ->
  forall (half mhalf : R) (imaginary : R -> C) (part : C -> R), spin_numbers half mhalf imaginary part ->
  forall (E : @env R) (EC : @env C) (J : internal) (junk : R) (junkC : C), NoDup [i_contract_0 J; i_contract_1 J; i_contract_2 J] ->
  exists t, spin_ss half mhalf imaginary part E EC J junk junkC = Ok t /\ fits_operator 2 2 t /\
  forall p q f s, p <> q -> extensional f -> s (fst p) (snd p) < 2 -> s (fst q) (snd q) < 2 ->
    applied 2 [p; q] t f s = radd (rmul half (f (swapped p q s))) (rmul (rmul half mhalf) (f s)) /\ applied 2 [p; q] t f s = applied 2 [q; p] t f s.
Proof. exact @ss_exchanges. Qed.
Print Assumptions C90_exchange.

(** ** the exact update with S.S on pairs of sites keeps the number of spins that are down *)
Theorem C90_sector :
  forall (R C : Type) (RR : Scalar R) (RC : Scalar C), exact_arithmetic R -> associative_product R -> distributive_product R -> exact_arithmetic C ->
  forall (half mhalf : R) (imaginary : R -> C) (part : C -> R), spin_numbers half mhalf imaginary part ->
  forall (E : @env R) (EC : @env C) (J : internal) (junk : R) (junkC : C), NoDup [i_contract_0 J; i_contract_1 J; i_contract_2 J] ->
  forall (V : Type) (vzero : V) (greater : V -> V -> bool) (of_real : V -> R) (abs : R -> V) (vsub vmul vdiv : V -> V -> V) (vabs : V -> V) (of_nat : nat -> V),
  modulus vzero greater of_real abs -> subtracting R -> dividing R ->
  forall (t : tensor unit R) (M N : nat) (terms : list (list (nat * nat) * tensor unit R)), spin_ss half mhalf imaginary part E EC J junk junkC = Ok t -> pair_terms M N t terms ->
  forall (k down : nat) (approximate_energy : V) (v : tensor unit R), exact_state M N 2 v -> in_sector M N down (component M N v) ->
  let a := vmul (vmul (vabs approximate_energy) (of_nat M)) (of_nat N) in
  not_zero M N 2 (shifted_times 2 (of_real a) terms k (component M N v)) ->
  exists v' e, exact_update E J vzero greater of_real abs vsub vmul vdiv vabs of_nat M N k approximate_energy terms v = Ok (v', e) /\ exact_state M N 2 v' /\ in_sector M N down (component M N v').
Proof. exact @sector_kept. Qed.
Print Assumptions C90_sector.

(** ** the setters: the operator is on all sites or bonds of the kind, and nothing else has changed *)
Theorem C90_all_sites : forall (H : Type) (M N : Z) (h : H) (l : list (Schedule.positions * H)) (p : Schedule.positions),
  (site_term M N p -> mfind p (set_all_site M N h l) = Some h) /\ (~ site_term M N p -> mfind p (set_all_site M N h l) = mfind p l).
Proof. exact @set_site. Qed.
Print Assumptions C90_all_sites.
Theorem C90_all_vertical : forall (H : Type) (M N : Z) (h : H) (l : list (Schedule.positions * H)) (p : Schedule.positions),
  (below_term M N p -> mfind p (set_all_vertical_bond M N h l) = Some h) /\ (~ below_term M N p -> mfind p (set_all_vertical_bond M N h l) = mfind p l).
Proof. exact @set_vertical. Qed.
Print Assumptions C90_all_vertical.
Theorem C90_all_horizontal : forall (H : Type) (M N : Z) (h : H) (l : list (Schedule.positions * H)) (p : Schedule.positions),
  (right_term M N p -> mfind p (set_all_horizontal_bond M N h l) = Some h) /\ (~ right_term M N p -> mfind p (set_all_horizontal_bond M N h l) = mfind p l).
Proof. exact @set_horizontal. Qed.
Print Assumptions C90_all_horizontal.

(** ** a new lattice with these terms goes through the simple update, with any number of processes and steps *)
Theorem C90_update :
  forall (R V : Type) (RR : Scalar R), exact_arithmetic R -> associative_product R -> distributive_product R -> dividing R ->
  forall (E : @env R) (J : internal) (Iq : qr_names) (Is : svd_names), NoDup [i_contract_0 J; i_contract_1 J; i_contract_2 J] -> own_names Iq Is ->
  forall (L : qr_lapack R) (gesvd : nat -> nat -> list R -> bool * (list V * list R * list R)) (vzero vjunk : V) (greater : V -> V -> bool)
    (of_real : V -> R) (abs : R -> V) (vabs : V -> V) (vdiv : V -> V -> V),
  qr_sound L -> svd_sound of_real vzero greater gesvd -> modulus vzero greater of_real abs -> real_division vzero greater of_real vabs vdiv ->
  forall (St : Type) (junk : R) (g : St -> R * St) (M N d D cut : nat) (st st' : St) (x : SimpleUpdate.network (res (tensor unit R)) (res (list (unit * list V))))
    (hs hv hh : nat) (exponential : nat -> nat -> res (tensor unit R)) (blank : res (list (unit * list V))) (steps size : nat),
  new_simple vzero greater of_real abs junk g M N D d st = Ok (x, st') -> 0 < cut -> 0 < size -> hs <> hv -> hs <> hh ->
  (forall k h, k = 1 /\ h = hs \/ k = 2 /\ (h = hv \/ h = hh) -> exists U, exponential k h = Ok U /\ fits_operator k d U) ->
  exists x', Runs.always_reaches
      (Mpi.launch size (fun r => SimpleUpdate.simple_update (multiple_t E of_real) (site_update_t E J) (bond_update_t E J Iq Is L gesvd vzero vjunk greater vabs vdiv cut)
         (normalized_t vzero greater of_real abs) blank exponential steps size r
         (set_all_horizontal_bond (Z.of_nat M) (Z.of_nat N) hh (set_all_vertical_bond (Z.of_nat M) (Z.of_nat N) hv (set_all_site (Z.of_nat M) (Z.of_nat N) hs []))) x))
      (Runs.finished size (fun _ => Mpi.Stop (Ok x'))) /\
    (~ qr_never_fails L \/ lattice_up_to M N d (Nat.max D cut) x').
Proof. exact @new_then_update. Qed.
Print Assumptions C90_update.

(** ** rational numbers and pairs of them; a row of two sites, one spin down *)
Definition half90 : Qc := Q2Qc (1 # 2).
Definition mhalf90 : Qc := Q2Qc (-1 # 2).
Definition imaginary90 (a : Qc) : cplx := (0%Qc, a).
Definition ss90 : res (tensor unit Qc) := spin_ss half90 mhalf90 imaginary90 fst eq_env c_env J85 (q_int 77) (q_int 5, q_int 6).
Definition t90 : tensor unit Qc := match ss90 with Ok t => t | _ => operator83 2 (fun _ => 0%Qc) end.
Example C90_numbers : spin_numbers half90 mhalf90 imaginary90 fst.
Proof. constructor; [apply Qc_is_canon; reflexivity|apply Qc_is_canon; reflexivity|reflexivity|]. intros a b. cbn. ring. Qed.
Example C90_ss : ss90 = Ok t90 /\ map (fun abcd => this (operator_element 2 t90 (fst abcd) (snd abcd))) [([0; 1], [1; 0]); ([0; 1], [0; 1]); ([0; 0], [0; 0]); ([0; 0], [1; 1])] = [1 # 2; -1 # 4; 1 # 4; 0]%Q.
Proof. split; vm_compute; reflexivity. Qed.
Definition v90 : tensor unit Qc := vector83 2 (fun p => q_int (nth p [0; 3; -2; 0]%Z 0%Z)).
Definition terms90 : list (list (nat * nat) * tensor unit Qc) := [([(0, 0); (0, 1)], t90)].
Lemma sector90 : in_sector 1 2 1 (component 1 2 v90).
Proof.
  intros s Hw Hd. assert (H0 := Hw 0 0 (le_n 1) (le_S _ _ (le_n 1))). assert (H1 := Hw 0 1 (le_n 1) (le_n 2)). revert Hd. unfold spins_down, component. cbn [sites seq flat_map map app fst snd fold_right].
  generalize dependent (s 0 0). generalize dependent (s 0 1). intros [|[|b]] Hb [|[|a]] Ha Hd; try lia; vm_compute; reflexivity.
Qed.
Example C90_state : exact_arithmetic cplx /\ subtracting Qc /\ dividing Qc /\ exact_state 1 2 2 v90 /\ in_sector 1 2 1 (component 1 2 v90) /\ pair_terms 1 2 t90 terms90 /\
  not_zero 1 2 2 (shifted_times 2 (q_int 4) terms90 1 (component 1 2 v90)).
Proof.
  split; [exact c_exact|]. split; [exact q_sub|]. split; [exact q_dividing|]. split; [apply vector83_ok; lia|]. split; [exact sector90|]. split.
  - constructor; [|constructor]. split; [reflexivity|]. exists (0, 0), (0, 1). split; [reflexivity|]. split; [repeat constructor; cbn; intuition discriminate|repeat constructor; cbn; lia].
  - exists (fun _ j => j). split; [intros i j; lia|]. vm_compute. discriminate.
Qed.
(** 2 x 3 sites: terms on 6 sites, 3 vertical and 4 horizontal bonds; negative sizes give none *)
Example C90_terms :
  set_all_horizontal_bond 2 3 3%Z (set_all_vertical_bond 2 3 2%Z (set_all_site 2 3 1%Z [])) =
  [([(0, 0)], 1); ([(0, 0); (0, 1)], 3); ([(0, 0); (1, 0)], 2); ([(0, 1)], 1); ([(0, 1); (0, 2)], 3); ([(0, 1); (1, 1)], 2); ([(0, 2)], 1); ([(0, 2); (1, 2)], 2);
   ([(1, 0)], 1); ([(1, 0); (1, 1)], 3); ([(1, 1)], 1); ([(1, 1); (1, 2)], 3); ([(1, 2)], 1)]%Z /\
  set_all_vertical_bond (-1) 3 2%Z [([(0, 5)], 7)]%Z = [([(0, 5)], 7)]%Z.
Proof. split; vm_compute; reflexivity. Qed.
Example C90_kinds : site_term 2 3 [(1, 2)]%Z /\ below_term 2 3 [(0, 2); (1, 2)]%Z /\ ~ below_term 2 3 [(1, 2); (0, 2)]%Z /\ right_term 2 3 [(1, 1); (1, 2)]%Z.
Proof.
  split; [exists (1, 2)%Z; split; [reflexivity|split; cbn; lia]|]. split; [exists 0%Z, 2%Z; repeat split; cbn; lia|]. split; [|exists 1%Z, 1%Z; repeat split; cbn; lia].
  intros [i [j [Q _]]]. injection Q as <- <- Q. discriminate Q.
Qed.
Example C90_start : exists x st', new_simple 0%Qc qgreater (fun x => x) Qcabs.Qcabs (q_int 99) (fun n => (q_int (Z.of_nat n), S n)) 2 2 1 2 1 = Ok (x, st').
Proof. destruct (new_simple_ok 0%Qc qgreater (fun x => x) Qcabs.Qcabs (q_int 99) (fun n => (q_int (Z.of_nat n), S n)) 2 2 1 2 1) as [T [x [st' [H _]]]]. now exists x, st'. Qed.
(** an exponential with operators that fit: the one on pairs keeps the states 00 and 11 *)
Definition exponential90 (k h : nat) : res (tensor unit Qc) := Ok (operator83 k (fun p => q_int (nth p [8; 0; 0; 0; 0; 0; 0; 0; 0; 0; 0; 0; 0; 0; 0; 1]%Z 0%Z))).
Example C90_fits : forall k h, k = 1 /\ h = 10 \/ k = 2 /\ (h = 11 \/ h = 12) -> exists U, exponential90 k h = Ok U /\ fits_operator k 2 U.
Proof. intros k h H. eexists. split; [reflexivity|]. apply operator83_ok. lia. Qed.
