(** C43-C45, C55-C57: sampling spin configurations.
    [valid_configuration], [enumerates], [acts_as], [no_zero_row], [hopping_term], [safe_term], [chance], [always], [expect], [expectation]: Spec/Sampling.v.
    The scalars: any type with a test for zero, a norm and a division that divides norms. *)
From Coq Require Import List Bool Arith ZArith Lia QArith Qreals Reals.
From Verif Require Import Base.Outcome Base.SMap Model.Symmetry Model.Schedule Model.Sampling Spec.Bonds Spec.Lattice Spec.Sampling.
From Verif Require Import Proof.ErgodicFacts Proof.ElementFacts Proof.ObserveFacts Proof.MarkovFacts Proof.ExSampling.
Import ListNotations.
Open Scope Z_scope.

(** ** C43 *)
(** one attempt: zero amplitudes and zero rows included *)
Theorem C43_term_detailed_balance :
  forall (V : Type) (is_zero : V -> bool) (psi : configuration -> V) (over : V -> V -> V) (norm : V -> R) M N d all, 0 < d -> enumerates M N d all ->
  (forall a b, is_zero b = false -> norm (over a b) = norm a / norm b)%R -> (forall v, 0 <= norm v)%R -> (forall v, is_zero v = true <-> norm v = 0%R) ->
  forall ps op c c', hopping_term is_zero M N d ps op -> valid_configuration M N d c -> valid_configuration M N d c' ->
  (norm (psi c) * chance (markov_term is_zero psi over norm d ps op (c, psi c)) c' = norm (psi c') * chance (markov_term is_zero psi over norm d ps op (c', psi c')) c)%R.
Proof. exact @term_detailed_balance. Qed.
Print Assumptions C43_term_detailed_balance.
Theorem C43_sweep_detailed_balance :
  forall (V : Type) (is_zero : V -> bool) (psi : configuration -> V) (over : V -> V -> V) (norm : V -> R) M N d all, 0 < d -> enumerates M N d all ->
  (forall a b, is_zero b = false -> norm (over a b) = norm a / norm b)%R -> (forall v, 0 <= norm v)%R -> (forall v, is_zero v = true <-> norm v = 0%R) ->
  forall hamiltonians sequence, (forall ps, In ps sequence -> exists op, mfind ps hamiltonians = Some op /\ safe_term is_zero M N d ps op) ->
  forall c c', valid_configuration M N d c -> valid_configuration M N d c' ->
  (norm (psi c) * chance (markov_spin is_zero psi over norm d hamiltonians sequence (c, psi c)) c' = norm (psi c') * chance (markov_spin is_zero psi over norm d hamiltonians sequence (c', psi c')) c)%R.
Proof. exact @sweep_detailed_balance. Qed.
Print Assumptions C43_sweep_detailed_balance.
(** any number of sweeps leaves the squared wave function as it is *)
Theorem C43_stationary :
  forall (V : Type) (is_zero : V -> bool) (psi : configuration -> V) (over : V -> V -> V) (norm : V -> R) M N d all, 0 < d -> enumerates M N d all ->
  (forall a b, is_zero b = false -> norm (over a b) = norm a / norm b)%R -> (forall v, 0 <= norm v)%R -> (forall v, is_zero v = true <-> norm v = 0%R) ->
  forall hamiltonians sequence, (forall ps, In ps sequence -> exists op, mfind ps hamiltonians = Some op /\ safe_term is_zero M N d ps op) ->
  forall n x, valid_configuration M N d x ->
  rsum (map (fun c => norm (psi c) * chance (equilibrate is_zero psi over norm d hamiltonians sequence n c) x)%R all) = norm (psi x).
Proof. exact @equilibrate_stationary. Qed.
Print Assumptions C43_stationary.
(** the amplitude carried along is that of the configuration *)
Theorem C43_amplitude :
  forall (V : Type) (is_zero : V -> bool) (psi : configuration -> V) (over : V -> V -> V) (norm : V -> R) M N d all, 0 < d -> enumerates M N d all ->
  (forall a b, is_zero b = false -> norm (over a b) = norm a / norm b)%R -> (forall v, 0 <= norm v)%R -> (forall v, is_zero v = true <-> norm v = 0%R) ->
  forall hamiltonians sequence, (forall ps, In ps sequence -> exists op, mfind ps hamiltonians = Some op /\ safe_term is_zero M N d ps op) ->
  forall n c, valid_configuration M N d c ->
  always (equilibrate is_zero psi over norm d hamiltonians sequence n c) (fun s => valid_configuration M N d (fst s) /\ snd s = psi (fst s)).
Proof. exact @equilibrate_always. Qed.
Print Assumptions C43_amplitude.
(** the exchange of two spins, with amplitudes 1, 1, 2, 2 *)
Example C43_case : enumerates 1 2 2 all2 /\ safe_term zeroQ 1 2 2 pair2 exchange_op /\ (forall a b, zeroQ b = false -> normQ (a / b) = normQ a / normQ b)%R /\ (forall v, 0 <= normQ v)%R /\ (forall v, zeroQ v = true <-> normQ v = 0%R)
  /\ map psi2 all2 = [1; 1; 2; 2]%Q /\ mfind pair2 [(pair2, exchange_op)] = Some exchange_op.
Proof. split; [exact all2_enumerates|]. split; [exact exchange_safe|]. split; [exact normQ_over|]. split; [exact normQ_nonneg|]. split; [exact normQ_zero|]. split; reflexivity. Qed.
(** it can move: the hop is drawn with one possibility *)
Example C43_moves : match markov_term zeroQ psi2 Qdiv normQ 2 pair2 exchange_op ([[0; 1]], 1%Q) with
  | Draw n k => n = 1%nat /\ match k 0%nat with Accept _ k' => k' true = Ret (Ok ([[1; 0]], 2%Q)) /\ k' false = Ret (Ok ([[0; 1]], 1%Q)) | _ => False end
  | _ => False end.
Proof. vm_compute. split; [reflexivity|]. split; reflexivity. Qed.

(** ** C44 *)
Theorem C44_valid : forall M N d step c, 0 < d -> rectangle M N c -> exists c', ergodic_spin M N d step c = Ok c' /\ valid_configuration M N d c'.
Proof. exact ergodic_valid. Qed.
Print Assumptions C44_valid.
Theorem C44_at_most_once : forall M N d step step' c c' r, 0 < d -> 0 <= M -> 0 <= N -> rectangle M N c -> rectangle M N c' ->
  0 <= step < d ^ (M * N) -> 0 <= step' < d ^ (M * N) -> ergodic_spin M N d step c = Ok r -> ergodic_spin M N d step' c' = Ok r -> step = step'.
Proof. exact ergodic_injective. Qed.
Print Assumptions C44_at_most_once.
Theorem C44_at_least_once : forall M N d r c, 0 <= M -> 0 <= N -> valid_configuration M N d r -> rectangle M N c -> 0 < d -> exists step, 0 <= step < d ^ (M * N) /\ ergodic_spin M N d step c = Ok r.
Proof. exact ergodic_surjective. Qed.
Print Assumptions C44_at_least_once.
Example C44_case : map (fun step => ergodic_spin 2 2 3 step [[0; 0]; [0; 0]]) [0; 1; 3; 47; 80] = [Ok [[0; 0]; [0; 0]]; Ok [[1; 0]; [0; 0]]; Ok [[0; 1]; [0; 0]]; Ok [[2; 0]; [2; 1]]; Ok [[2; 2]; [2; 2]]].
Proof. reflexivity. Qed.

(** ** C45 *)
(** full claim: measuring succeeds for every configuration *)
Definition measures_always : Prop :=
  forall (amplitude : configuration -> Q) M N d (ps : positions) (op : operator Q) (el : list Z -> Q), 0 < d -> acts_as d op el -> body op = length ps -> NoDup ps -> (forall p, In p ps -> inside M N p) ->
  forall c, valid_configuration M N d c -> exists value, observe zeroQ amplitude Qdiv Qmult Q2R Rplus 0%R d ps op c (amplitude c) = Ok value.
(** the operator that raises one spin *)
Definition raise (index : list Z) : Q := match index with [0; 1] => 1 | _ => 0 end.
Definition raise_op : operator Q := mkOperator 1 (fun index => Ok (raise index)).
Theorem C45_measures_always_refuted : ~ measures_always.
Proof.
  intros H. destruct (H (fun _ => 1%Q) 1 1 2 [(0, 0)] raise_op raise) with (c := [[1]]) as [value E]; [lia|split; [discriminate|reflexivity]|reflexivity|repeat constructor; intros []|intros p [<-|[]]; unfold inside; cbn; lia| |discriminate E].
  split; [split; [reflexivity|intros row [<-|[]]; reflexivity]|]. intros row [<-|[]] s [<-|[]]; lia.
Qed.
Print Assumptions C45_measures_always_refuted.
(** what happens instead *)
Theorem C45_measure_zero_row :
  forall (V : Type) (is_zero : V -> bool) (amplitude : configuration -> V) (over times : V -> V -> V) (part : V -> R) M N d (ps : positions) (op : operator V) (el : list Z -> V),
  0 < d -> acts_as d op el -> body op = length ps -> (forall p, In p ps -> inside M N p) ->
  forall c ws, valid_configuration M N d c -> (forall outs, spins_of d (body op) outs -> is_zero (el (spins_at c ps ++ outs)) = true) ->
  observe is_zero amplitude over times part Rplus 0%R d ps op c ws = Throw OutOfRange.
Proof. exact @observe_zero_row. Qed.
Print Assumptions C45_measure_zero_row.
Theorem C45_hop_zero_row :
  forall (V : Type) (is_zero : V -> bool) (psi : configuration -> V) (over : V -> V -> V) (norm : V -> R) M N d, 0 < d -> forall (ps : positions) (op : operator V) (el : list Z -> V),
  acts_as d op el -> body op = length ps -> (forall p, In p ps -> inside M N p) ->
  forall c, valid_configuration M N d c -> (forall outs, spins_of d (body op) outs -> is_zero (el (spins_at c ps ++ outs)) = true) ->
  markov_term is_zero psi over norm d ps op (c, psi c) = Ret (Throw OutOfRange).
Proof. exact @closed_row. Qed.
Print Assumptions C45_hop_zero_row.
(** without zero rows it succeeds; missing: operators with one *)
Theorem C45_measures_partial :
  forall (V : Type) (is_zero : V -> bool) (amplitude : configuration -> V) (over times : V -> V -> V) (part : V -> R) M N d (ps : positions) (op : operator V) (el : list Z -> V),
  0 < d -> acts_as d op el -> body op = length ps -> NoDup ps -> (forall p, In p ps -> inside M N p) ->
  forall c, valid_configuration M N d c -> no_zero_row is_zero d op el -> exists value, observe is_zero amplitude over times part Rplus 0%R d ps op c (amplitude c) = Ok value.
Proof. exact @observe_succeeds. Qed.
Print Assumptions C45_measures_partial.
Example C45_case : acts_as 2 exchange_op exchange /\ no_zero_row zeroQ 2 exchange_op exchange /\ NoDup pair2 /\ (forall p, In p pair2 -> inside 1 2 p) /\ valid_configuration 1 2 2 [[0; 1]].
Proof. split; [exact exchange_acts|]. split; [exact exchange_rows|]. split; [apply pair2_fine|]. split; [apply pair2_fine|]. apply two_spins. exists 0, 1. split; [reflexivity|lia]. Qed.

(** ** C55 *)
Definition ergodic_exact : Prop :=
  forall (amplitude : configuration -> Q) M N d (ps : positions) (op : operator Q) (el : list Z -> Q) all c0, 0 < d -> acts_as d op el -> body op = length ps -> NoDup ps -> (forall p, In p ps -> inside M N p) ->
  enumerates M N d all -> 0 <= M -> 0 <= N -> rectangle M N c0 -> no_zero_row zeroQ d op el -> (exists c, valid_configuration M N d c /\ zeroQ (amplitude c) = false) ->
  ergodic zeroQ amplitude Qdiv Qmult Q2R normQ Rplus Rmult Rdiv 0%R M N d ps op c0 = Ok (Some (expectation M N ps el amplitude Qmult overlapQ all)).
(** one zero amplitude makes the mean no number *)
Theorem C55_exact_refuted : ~ ergodic_exact.
Proof.
  intros H. assert (E := H (fun c => inject_Z (spin c (0, 0))) 1 2 2 pair2 exchange_op exchange all2 [[0; 0]] ltac:(lia) exchange_acts eq_refl (proj1 pair2_fine) (proj2 pair2_fine) all2_enumerates ltac:(lia) ltac:(lia)).
  assert (R : rectangle 1 2 [[0; 0]]) by (split; [reflexivity|intros row [<-|[]]; reflexivity]). specialize (E R exchange_rows).
  assert (Q : exists c, valid_configuration 1 2 2 c /\ zeroQ (inject_Z (spin c (0, 0))) = false) by (exists [[1; 0]]; split; [apply two_spins; exists 1, 0; split; [reflexivity|lia]|reflexivity]). specialize (E Q). clear - E. discriminate E.
Qed.
Print Assumptions C55_exact_refuted.
(** exact when no amplitude is zero; missing: wave functions with a zero amplitude *)
Theorem C55_exact_partial :
  forall (V : Type) (is_zero : V -> bool) (amplitude : configuration -> V) (over times : V -> V -> V) (part : V -> R) M N d (ps : positions) (op : operator V) (el : list Z -> V),
  0 < d -> acts_as d op el -> body op = length ps -> NoDup ps -> (forall p, In p ps -> inside M N p) ->
  forall overlap : V -> V -> R, (forall x y, is_zero y = false -> part (over x y) * overlap y y = overlap y x)%R -> (forall x y z, is_zero x = true -> overlap y (times x z) = 0%R) ->
  forall all, enumerates M N d all -> forall weight : V -> R, (forall x, weight x = overlap x x) ->
  forall c0, 0 <= M -> 0 <= N -> rectangle M N c0 -> no_zero_row is_zero d op el -> (forall c, valid_configuration M N d c -> is_zero (amplitude c) = false) ->
  ergodic is_zero amplitude over times part weight Rplus Rmult Rdiv 0%R M N d ps op c0 = Ok (Some (expectation M N ps el amplitude times overlap all)).
Proof. exact @ergodic_expectation. Qed.
Print Assumptions C55_exact_partial.
Example C55_case : (forall x y, zeroQ y = false -> Q2R (x / y) * overlapQ y y = overlapQ y x)%R /\ (forall x y z, zeroQ x = true -> overlapQ y (x * z) = 0%R) /\ (forall x, normQ x = overlapQ x x) /\ (forall c, valid_configuration 1 2 2 c -> zeroQ (psi2 c) = false).
Proof. split; [exact overQ_overlap|]. split; [exact zeroQ_overlap|]. split; [reflexivity|exact psi2_nonzero]. Qed.

(** ** C56 *)
Definition elements_current : Prop := forall (find : Z -> operator Q -> res (elements Q)) history, requests find history [] = mapM (fun r => find (snd (fst r)) (snd r)) history.
(** another tensor at the address of a dropped one *)
Theorem C56_current_refuted : ~ elements_current.
Proof.
  intros H. specialize (H (find_element zeroQ) [(7%nat, 2, raise_op); (7%nat, 2, mkOperator 1 (fun index => Ok (match index with [1; 0] => 1%Q | _ => 0%Q end)))]). vm_compute in H. discriminate H.
Qed.
Print Assumptions C56_current_refuted.
(** missing: addresses used again for another tensor, or by a lattice of another dimension *)
Theorem C56_current_partial :
  forall (V : Type) (find : Z -> operator V -> res (elements V)) history, (forall a d op d' op', In (a, d, op) history -> In (a, d', op') history -> d = d' /\ op = op') ->
  requests find history [] = mapM (fun r => find (snd (fst r)) (snd r)) history.
Proof. exact @requests_true. Qed.
Print Assumptions C56_current_partial.
Example C56_case : requests (find_element zeroQ) [(7%nat, 2, raise_op); (8%nat, 2, exchange_op); (7%nat, 2, raise_op)] [] =
  Ok [[([0], [([1], 1%Q)])]; [([0; 0], [([0; 0], 1%Q)]); ([0; 1], [([1; 0], 1%Q)]); ([1; 0], [([0; 1], 1%Q)]); ([1; 1], [([1; 1], 1%Q)])]; [([0], [([1], 1%Q)])]].
Proof. reflexivity. Qed.

(** ** C57 *)
Theorem C57_never_nan :
  forall (V : Type) (is_zero : V -> bool) (psi : configuration -> V) (over : V -> V -> V) (norm : V -> R) M N d all, 0 < d -> enumerates M N d all ->
  (forall a b, is_zero b = false -> norm (over a b) = norm a / norm b)%R -> (forall v, 0 <= norm v)%R -> (forall v, is_zero v = true <-> norm v = 0%R) ->
  forall hamiltonians sequence, (forall ps, In ps sequence -> exists op, mfind ps hamiltonians = Some op /\ safe_term is_zero M N d ps op) ->
  forall (times : V -> V -> V) (part : V -> R) (ps : positions) (op : operator V) (el : list Z -> V) (overlap : V -> V -> R),
  acts_as d op el -> body op = length ps -> NoDup ps -> (forall p, In p ps -> inside M N p) -> no_zero_row is_zero d op el ->
  (forall x y, is_zero y = false -> part (over x y) * overlap y y = overlap y x)%R -> (forall x y z, is_zero x = true -> overlap y (times x z) = 0%R) ->
  forall n c, valid_configuration M N d c -> is_zero (psi c) = false -> n <> O ->
  always (markov is_zero psi over norm times part d hamiltonians sequence ps op n c) (fun v => v <> None).
Proof. exact @markov_always. Qed.
Print Assumptions C57_never_nan.
(** the mean over initial configurations drawn from the squared wave function *)
Theorem C57_unbiased :
  forall (V : Type) (is_zero : V -> bool) (psi : configuration -> V) (over : V -> V -> V) (norm : V -> R) M N d all, 0 < d -> enumerates M N d all ->
  (forall a b, is_zero b = false -> norm (over a b) = norm a / norm b)%R -> (forall v, 0 <= norm v)%R -> (forall v, is_zero v = true <-> norm v = 0%R) ->
  forall hamiltonians sequence, (forall ps, In ps sequence -> exists op, mfind ps hamiltonians = Some op /\ safe_term is_zero M N d ps op) ->
  forall (times : V -> V -> V) (part : V -> R) (ps : positions) (op : operator V) (el : list Z -> V) (overlap : V -> V -> R),
  acts_as d op el -> body op = length ps -> NoDup ps -> (forall p, In p ps -> inside M N p) -> no_zero_row is_zero d op el ->
  (forall x y, is_zero y = false -> part (over x y) * overlap y y = overlap y x)%R -> (forall x y z, is_zero x = true -> overlap y (times x z) = 0%R) ->
  (forall x, norm x = overlap x x) -> (forall x y, is_zero x = true -> overlap x y = 0%R) ->
  forall n, n <> O -> (0 < rsum (map (fun c => norm (psi c)) all))%R ->
  (rsum (map (fun c => norm (psi c) * expect (markov is_zero psi over norm times part d hamiltonians sequence ps op n c) value_of) all) / rsum (map (fun c => norm (psi c)) all) = expectation M N ps el psi times overlap all)%R.
Proof. exact @markov_unbiased. Qed.
Print Assumptions C57_unbiased.
(** the same scalars, term and observer as for C43 and C55 *)
Example C57_case : (forall x y, zeroQ x = true -> overlapQ x y = 0%R) /\ (0 < rsum (map (fun c => normQ (psi2 c)) all2))%R.
Proof. split; [exact overlapQ_zero|]. unfold rsum, normQ, Q2R. cbn. Lra.lra. Qed.
