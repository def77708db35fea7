(** C89: a lattice stays a lattice.  [simple_lattice M N d dim T x]: the sites of the lattice x are the tensors T, the tensor of every site has the edges of its
    place in M rows and N columns and the dimensions dim and d, and the environments are on bonds and fit (Spec/WeightedLattice.v); [lattice_up_to D]: so, and the
    bonds have dimensions up to D; [term_fits]: an operator on a site or on two neighbours; [made]: lattices that the constructor and terms of updates make
    (Spec/LatticeLife.v).  Exact arithmetic. *)
From Coq Require Import String List Bool Arith ZArith QArith Qcanon Lia.
From Verif Require Import Base.Outcome Base.SMap Model.Symmetry Model.Edge Model.Core Model.EdgeOperator Model.Contract Model.Qr Model.Svd Model.Auxiliaries Model.Spins Model.SimpleTensor Model.Exact Model.NetworkNew
  Spec.Contract Spec.Plain Spec.Lapack Spec.Grid Spec.SquareLattice Spec.SpinLattice Spec.Truncate Spec.Svd Spec.ExactState Spec.WeightedLattice Spec.ExactOperator Spec.LocalUpdate Spec.LatticeLife Proof.NewFacts Proof.LatticeLife Proof.ScalarQ Proof.ExExact Proof.ExObserve Proof.ExTerm.
From Verif Require Model.Schedule Model.Lazy Model.Mpi Model.SimpleUpdate Spec.Bonds Spec.Runs.
From Coq Require Qcabs.
Import ListNotations.
Local Open Scope nat_scope.

(** ** the constructors *)
Theorem C89_new :
  forall (R V St : Type) (RR : Scalar R) (vzero : V) (greater : V -> V -> bool) (of_real : V -> R) (abs : R -> V) (junk : R) (g : St -> R * St) (M N D d : nat) (st : St),
  exists T (x : SimpleUpdate.network (res (tensor unit R)) (res (list (unit * list V)))) st', new_simple vzero greater of_real abs junk g M N D d st = Ok (x, st') /\
    simple_lattice M N d (fun _ => D) T x /\ SimpleUpdate.environment x = [].
Proof. exact @new_simple_ok. Qed.
Print Assumptions C89_new.
Theorem C89_new_exact :
  forall (R V St : Type) (RR : Scalar R) (vzero : V) (greater : V -> V -> bool) (of_real : V -> R) (abs : R -> V) (junk : R) (g : St -> R * St) (M N d : nat) (st : St),
  exists v st', new_exact vzero greater of_real abs junk g M N d st = Ok (v, st') /\ exact_state M N d v.
Proof. exact @new_exact_ok. Qed.
Print Assumptions C89_new_exact.

(** ** terms one after the other, with cuts of any size: what they make is a lattice *)
Theorem C89_stays :
  forall (R V : Type) (RR : Scalar R), exact_arithmetic R -> associative_product R -> distributive_product R -> dividing R ->
  forall (E : @env R) (J : internal) (Iq : qr_names) (Is : svd_names), NoDup [i_contract_0 J; i_contract_1 J; i_contract_2 J] -> own_names Iq Is ->
  forall (L : qr_lapack R) (gesvd : nat -> nat -> list R -> bool * (list V * list R * list R)) (vzero vjunk : V) (greater : V -> V -> bool)
    (of_real : V -> R) (abs : R -> V) (vabs : V -> V) (vdiv : V -> V -> V),
  qr_sound L -> svd_sound of_real vzero greater gesvd -> modulus vzero greater of_real abs -> real_division vzero greater of_real vabs vdiv ->
  forall (M N d : nat) (St : Type) (junk : R) (g : St -> R * St) (D : nat) (x : SimpleUpdate.network (res (tensor unit R)) (res (list (unit * list V)))),
  made M N d (fun D x => exists st st', new_simple vzero greater of_real abs junk g M N D d st = Ok (x, st'))
    (fun cut ps U x => term_result E J Iq Is L gesvd vzero vjunk greater of_real abs vabs vdiv cut (map z_site ps) U x) D x ->
  lattice_up_to M N d D x.
Proof. exact @made_lattice. Qed.
Print Assumptions C89_stays.
(** ... and the next term works, unless LAPACK fails *)
Theorem C89_goes_on :
  forall (R V : Type) (RR : Scalar R), exact_arithmetic R -> associative_product R -> distributive_product R -> dividing R ->
  forall (E : @env R) (J : internal) (Iq : qr_names) (Is : svd_names), NoDup [i_contract_0 J; i_contract_1 J; i_contract_2 J] -> own_names Iq Is ->
  forall (L : qr_lapack R) (gesvd : nat -> nat -> list R -> bool * (list V * list R * list R)) (vzero vjunk : V) (greater : V -> V -> bool)
    (of_real : V -> R) (abs : R -> V) (vabs : V -> V) (vdiv : V -> V -> V),
  qr_sound L -> svd_sound of_real vzero greater gesvd -> modulus vzero greater of_real abs -> real_division vzero greater of_real vabs vdiv ->
  forall (M N d : nat) (St : Type) (junk : R) (g : St -> R * St) (D : nat) (x : SimpleUpdate.network (res (tensor unit R)) (res (list (unit * list V)))) (cut : nat) (ps : list (nat * nat)) (U : tensor unit R),
  made M N d (fun D x => exists st st', new_simple vzero greater of_real abs junk g M N D d st = Ok (x, st'))
    (fun cut ps U x => term_result E J Iq Is L gesvd vzero vjunk greater of_real abs vabs vdiv cut (map z_site ps) U x) D x ->
  0 < cut -> term_fits M N d ps U ->
  (exists msg, term_result E J Iq Is L gesvd vzero vjunk greater of_real abs vabs vdiv cut (map z_site ps) U x = Throw (RuntimeError msg) /\ ~ qr_never_fails L) \/
  exists x' w, term_result E J Iq Is L gesvd vzero vjunk greater of_real abs vabs vdiv cut (map z_site ps) U x = Ok (x', w) /\ (w = true -> ~ svd_never_fails gesvd).
Proof. exact @made_goes_on. Qed.
Print Assumptions C89_goes_on.

(** ** the whole update with any number of processes, from any lattice *)
Theorem C89_update :
  forall (R V : Type) (RR : Scalar R), exact_arithmetic R -> associative_product R -> distributive_product R -> dividing R ->
  forall (E : @env R) (J : internal) (Iq : qr_names) (Is : svd_names), NoDup [i_contract_0 J; i_contract_1 J; i_contract_2 J] -> own_names Iq Is ->
  forall (L : qr_lapack R) (gesvd : nat -> nat -> list R -> bool * (list V * list R * list R)) (vzero vjunk : V) (greater : V -> V -> bool)
    (of_real : V -> R) (abs : R -> V) (vabs : V -> V) (vdiv : V -> V -> V),
  qr_sound L -> svd_sound of_real vzero greater gesvd -> modulus vzero greater of_real abs -> real_division vzero greater of_real vabs vdiv ->
  forall (M N d cut D : nat) (hs : list (Schedule.positions * nat)) (exponential : nat -> nat -> res (tensor unit R)),
  0 < cut -> NoDup (map fst hs) -> Bonds.oriented (map fst hs) ->
  (forall p, In p (map fst hs) -> Bonds.local_term p /\ forall a, In a p -> Bonds.inside (Z.of_nat M) (Z.of_nat N) a) ->
  (forall p q h, In (p, h) hs -> In (q, h) hs -> length p = length q) ->
  (forall p h, In (p, h) hs -> exists U, exponential (length p) h = Ok U /\ fits_operator (length p) d U) ->
  forall (blank : res (list (unit * list V))) (steps size : nat) (x : SimpleUpdate.network (res (tensor unit R)) (res (list (unit * list V)))),
  0 < size -> lattice_up_to M N d D x -> msorted (SimpleUpdate.environment x) ->
  exists x', Runs.always_reaches
      (Mpi.launch size (fun r => SimpleUpdate.simple_update (multiple_t E of_real) (site_update_t E J) (bond_update_t E J Iq Is L gesvd vzero vjunk greater vabs vdiv cut)
         (normalized_t vzero greater of_real abs) blank exponential steps size r hs x))
      (Runs.finished size (fun _ => Mpi.Stop (Ok x'))) /\
    (~ qr_never_fails L \/ lattice_up_to M N d (Nat.max D cut) x' /\ msorted (SimpleUpdate.environment x')).
Proof. exact @update_good. Qed.
Print Assumptions C89_update.

(** ** rational numbers; the generator gives 1, 2, 3, ...; a new row of three sites with bonds of dimension one, then a bond with the cut one, so that the smaller
    of the two singular values is left out *)
Definition g89 (n : nat) : Qc * nat := (q_int (Z.of_nat n), S n).
Definition new89 := new_simple 0%Qc qgreater (fun x => x) Qcabs.Qcabs (q_int 99) g89.
Definition step89 (cut : nat) (ps : list (nat * nat)) (U : tensor unit Qc) (x : SimpleUpdate.network (res (tensor unit Qc)) (res (list (unit * list Qc)))) :=
  term_result eq_env J85 (mkQrNames 203 204) (mkSvdNames 201 202) qqr qsvd 0%Qc 0%Qc qgreater (fun x => x) Qcabs.Qcabs Qcabs.Qcabs Qcdiv cut (map z_site ps) U x.
(** keeps the states 00 and 11 *)
Definition U89 : tensor unit Qc := operator83 2 (fun p => q_int (nth p [8; 0; 0; 0; 0; 0; 0; 0; 0; 0; 0; 0; 0; 0; 0; 1]%Z 0%Z)).
Definition start89 := match new89 1 3 1 2 1 with Ok (x, _) => x | _ => SimpleUpdate.mkNetwork [] [] end.
Definition next89 (cut : nat) := match step89 cut [(0, 1); (0, 0)] U89 start89 with Ok (x, w) => (x, w) | _ => (SimpleUpdate.mkNetwork [] [], true) end.
Definition spectra89 (x : SimpleUpdate.network (res (tensor unit Qc)) (res (list (unit * list Qc)))) :=
  map (fun kv => (fst kv, match snd kv with Ok [(tt, l)] => map this l | _ => [] end)) (SimpleUpdate.environment x).
Example C89_values :
  map (fun row => map (fun t => match t with Ok t => map (fun b => map this (snd b)) (t_blocks t) | _ => [] end) row) (SimpleUpdate.lattice start89) = [[[[1 # 2; 1]]; [[3 # 4; 1]]; [[5 # 6; 1]]]]%Q /\
  (spectra89 (fst (next89 1)), snd (next89 1)) = ([(bond_key (Right_of 0 0), [1])], false)%Q /\
  (spectra89 (fst (next89 9)), snd (next89 9)) = ([(bond_key (Right_of 0 0), [1; 1 # 3])], false)%Q.
Proof. now vm_compute. Qed.
Lemma C89_term : term_fits 1 3 2 [(0, 1); (0, 0)] U89.
Proof. right. exists (Right_of 0 0). split; [now right|]. split; [now left|]. apply operator83_ok. lia. Qed.
Example C89_made : made 1 3 2 (fun D x => exists st st', new89 1 3 D 2 st = Ok (x, st')) step89 1 (fst (next89 1)).
Proof.
  apply (made_term 1 3 2 _ step89 1) with (cut := 1) (x := start89) (ps := [(0, 1); (0, 0)]) (U := U89) (w := snd (next89 1)).
  - apply made_new. exists 1, 7. vm_compute. reflexivity.
  - lia.
  - exact C89_term.
  - unfold next89. destruct (step89 1 [(0, 1); (0, 0)] U89 start89) as [[x w]| | |] eqn:Q; [reflexivity|vm_compute in Q; discriminate Q..].
Qed.
Example C89_hypotheses : exact_arithmetic Qc /\ associative_product Qc /\ distributive_product Qc /\ dividing Qc /\
  NoDup [i_contract_0 J85; i_contract_1 J85; i_contract_2 J85] /\ own_names (mkQrNames 203 204) (mkSvdNames 201 202) /\ qr_sound qqr /\ svd_sound (fun x => x) 0%Qc qgreater qsvd /\
  modulus 0%Qc qgreater (fun x => x) Qcabs.Qcabs /\ real_division 0%Qc qgreater (fun x => x) Qcabs.Qcabs Qcdiv.
Proof.
  split; [exact q_exact|]. split; [exact q_assoc|]. split; [exact q_distr|]. split; [exact q_dividing|]. split; [repeat constructor; cbn; intuition discriminate|].
  split; [repeat split; try discriminate; destruct d; discriminate|]. split; [exact qqr_sound|]. split; [exact qsvd_sound|]. split; [exact q_modulus|exact q_real].
Qed.
(** the terms of an update: the operator on the two bonds, listed in different orders *)
Definition terms89 : list (Schedule.positions * nat) := [([(0, 1); (0, 0)]%Z, 5); ([(0, 1); (0, 2)]%Z, 5)].
Definition exp89 (k h : nat) : res (tensor unit Qc) := Ok U89.
Example C89_terms : NoDup (map fst terms89) /\ Bonds.oriented (map fst terms89) /\
  (forall p, In p (map fst terms89) -> Bonds.local_term p /\ forall a, In a p -> Bonds.inside (Z.of_nat 1) (Z.of_nat 3) a) /\
  (forall p q h, In (p, h) terms89 -> In (q, h) terms89 -> length p = length q) /\
  (forall p h, In (p, h) terms89 -> exists U, exp89 (length p) h = Ok U /\ fits_operator (length p) 2 U) /\ lattice_up_to 1 3 2 1 start89 /\ msorted (SimpleUpdate.environment start89).
Proof.
  split; [repeat constructor; cbn; intuition discriminate|]. split; [|split; [|split; [|split; [|split]]]].
  - intros a b Ha Hb. cbn in Ha, Hb. repeat match goal with H : _ \/ _ |- _ => destruct H | H : False |- _ => destruct H end; try discriminate; inversion H; inversion H0; congruence.
  - intros p Hp. cbn in Hp. repeat match goal with H : _ \/ _ |- _ => destruct H as [<-|H] | H : False |- _ => destruct H end;
      (split; [right; eexists; eexists; split; reflexivity|]);
      intros a Ha; cbn in Ha; repeat match goal with H : _ \/ _ |- _ => destruct H as [<-|H] | H : False |- _ => destruct H end; unfold Bonds.inside; cbn; lia.
  - intros p q h [Q|[Q|[]]] [Q'|[Q'|[]]]; injection Q as <- <-; injection Q' as <-; reflexivity.
  - intros p h [Q|[Q|[]]]; injection Q as <- <-; exists U89; (split; [reflexivity|apply operator83_ok; lia]).
  - destruct (C89_new Qc Qc nat _ 0%Qc qgreater (fun x => x) Qcabs.Qcabs (q_int 99) g89 1 3 1 2 1) as [T [x [st [Q1 [Q2 _]]]]]. exists (fun _ => 1), T. split; [|auto].
    unfold start89, new89. rewrite Q1. exact Q2.
  - constructor.
Qed.
