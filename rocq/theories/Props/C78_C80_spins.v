(** C78: the amplitude of a configuration of spins.  C79: the same when the tensors of the lattice are changed.  C80: the gradient.
    The tensor of site (i, j) has an edge P of dimension [d] and the edges U, D, L, R of C75 ([fits_spin]); [psi T s]: the contraction of the
    lattice [T] with every edge P fixed at the spin [s] of its site (Spec/SpinLattice.v).  [action]: set a spin (-1: none), replace a tensor,
    copy the lattice or change the cut; [fresh]: no spin is set.  [L], [gesvd]: LAPACK; [unless_reported]: as in C75.  Exact arithmetic. *)
From Coq Require Import String Ascii List Bool Arith ZArith Lia.
From Verif Require Import Base.Outcome Base.SMap Model.Symmetry Model.Edge Model.Core Model.EdgeOperator Model.Contract Model.Misc Model.Qr Model.Svd Model.Auxiliaries Model.Spins
  Spec.Blocks Spec.Relabel Spec.Contract Spec.Plain Spec.Lapack Spec.Grid Spec.Truncate Spec.Svd Spec.SquareLattice Spec.SpinLattice Proof.CoreFacts Proof.SpinHistory
  Proof.ScalarZ Proof.ExTensors Proof.ExFilled Proof.ExQr Proof.ExSvd.
Import ListNotations.

(** ** C78.  Spins set in any order, any number of times; the tensors are not changed *)
Theorem C78_amplitude :
  forall (R V : Type) (RR : Scalar R), exact_arithmetic R -> associative_product R -> distributive_product R ->
  forall (E : @env R) (J : internal) (Iq : qr_names) (Is : svd_names) (L : qr_lapack R)
    (gesvd : nat -> nat -> list R -> bool * (list V * list R * list R)) (vzero vjunk : V) (greater : V -> V -> bool) (of_real : V -> R),
  NoDup [i_contract_0 J; i_contract_1 J; i_contract_2 J] -> own_names Iq Is -> qr_sound L -> svd_sound of_real vzero greater gesvd -> strict_order greater ->
  forall (M N cut d : nat) (dim : bond -> nat), 0 < cut ->
  forall (T : nat -> nat -> tensor unit R) (actions : list (@action R)), 0 < M -> 0 < N ->
  (forall i j, i < M -> j < N -> fits_spin M N dim d i j (T i j)) -> rows_within M N dim cut ->
  Forall (proper M N dim d) actions -> Forall keeps_tensors actions -> (forall i j, i < M -> j < N -> spin_after actions i j <> (-1)%Z) ->
  exists c, run E J M N actions (lattice_of M N T, fresh M N) = Ok (lattice_of M N T, c) /\
    unless_reported L gesvd (fun v => v = psi M N dim T (spin_after actions))
      (spin_amplitude E J Iq Is L gesvd vzero vjunk greater of_real M N cut c).
Proof. exact @amplitude_kept. Qed.
Print Assumptions C78_amplitude.

(** all spins from a function *)
Theorem C78_initialize :
  forall (R V : Type) (RR : Scalar R), exact_arithmetic R -> associative_product R -> distributive_product R ->
  forall (E : @env R) (J : internal) (Iq : qr_names) (Is : svd_names) (L : qr_lapack R)
    (gesvd : nat -> nat -> list R -> bool * (list V * list R * list R)) (vzero vjunk : V) (greater : V -> V -> bool) (of_real : V -> R),
  NoDup [i_contract_0 J; i_contract_1 J; i_contract_2 J] -> own_names Iq Is -> qr_sound L -> svd_sound of_real vzero greater gesvd -> strict_order greater ->
  forall (M N cut d : nat) (dim : bond -> nat), 0 < cut ->
  forall (T : nat -> nat -> tensor unit R) (sp : nat -> nat -> Z), 0 < M -> 0 < N ->
  (forall i j, i < M -> j < N -> fits_spin M N dim d i j (T i j)) -> rows_within M N dim cut -> (forall i j, i < M -> j < N -> (0 <= sp i j < Z.of_nat d)%Z) ->
  exists c, initialize_spin E J M N (lattice_of M N T) (fun i j => Ok (sp i j)) (fresh M N) = Ok c /\
    unless_reported L gesvd (fun v => v = psi M N dim T sp) (spin_amplitude E J Iq Is L gesvd vzero vjunk greater of_real M N cut c).
Proof. exact @initialized_amplitude. Qed.
Print Assumptions C78_initialize.

(** the amplitude with other spins at some sites, the amplitude [ws] of the configuration given: at none, one or two neighbouring sites *)
Theorem C78_replaced :
  forall (R V : Type) (RR : Scalar R), exact_arithmetic R -> associative_product R -> distributive_product R ->
  forall (E : @env R) (J : internal) (Iq : qr_names) (Is : svd_names) (L : qr_lapack R)
    (gesvd : nat -> nat -> list R -> bool * (list V * list R * list R)) (vzero vjunk : V) (greater : V -> V -> bool) (of_real : V -> R),
  NoDup [i_contract_0 J; i_contract_1 J; i_contract_2 J] -> own_names Iq Is -> qr_sound L -> svd_sound of_real vzero greater gesvd -> strict_order greater ->
  forall (M N cut d : nat) (dim : bond -> nat), 0 < cut ->
  forall (T : nat -> nat -> tensor unit R) (c : @spins R) (sp : nat -> nat -> Z) (replacement : list (nat * nat * Z)) (ws : R) (hint : ascii), 0 < M -> 0 < N ->
  configured E J M N dim d T c sp -> rows_within M N dim cut -> columns_within M N dim cut -> replaceable_spins M N d replacement -> ws = psi M N dim T sp ->
  unless_reported L gesvd (fun v => v = psi M N dim T (spins_with sp replacement))
    (spin_replaced E J Iq Is L gesvd vzero vjunk greater of_real M N cut (lattice_of M N T) c replacement ws hint).
Proof. exact @replaced_configured. Qed.
Print Assumptions C78_replaced.

(** ** C79.  The amplitude after tensors were changed as well: of the tensors there are now, if every tensor was replaced while the spin of
    its site was not set, or the spin was unset or the lattice copied later.  Missing: replacing a tensor and keeping its spin, as
    examples/heisenberg.cpp:188-194 does *)
Theorem C79_tensors_changed_partial :
  forall (R V : Type) (RR : Scalar R), exact_arithmetic R -> associative_product R -> distributive_product R ->
  forall (E : @env R) (J : internal) (Iq : qr_names) (Is : svd_names) (L : qr_lapack R)
    (gesvd : nat -> nat -> list R -> bool * (list V * list R * list R)) (vzero vjunk : V) (greater : V -> V -> bool) (of_real : V -> R),
  NoDup [i_contract_0 J; i_contract_1 J; i_contract_2 J] -> own_names Iq Is -> qr_sound L -> svd_sound of_real vzero greater gesvd -> strict_order greater ->
  forall (M N cut d : nat) (dim : bond -> nat), 0 < cut ->
  forall (T : nat -> nat -> tensor unit R) (actions : list (@action R)), 0 < M -> 0 < N ->
  (forall i j, i < M -> j < N -> fits_spin M N dim d i j (T i j)) -> rows_within M N dim cut ->
  Forall (proper M N dim d) actions -> careful actions -> (forall i j, i < M -> j < N -> spin_after actions i j <> (-1)%Z) ->
  exists c, run E J M N actions (lattice_of M N T, fresh M N) = Ok (lattice_of M N (tensor_after T actions), c) /\
    unless_reported L gesvd (fun v => v = psi M N dim (tensor_after T actions) (spin_after actions))
      (spin_amplitude E J Iq Is L gesvd vzero vjunk greater of_real M N cut c).
Proof. exact @amplitude_careful. Qed.
Print Assumptions C79_tensors_changed_partial.

(** ** C80.  The gradient of site (i, j) from samples (configuration, amplitude, energy): 2 <O E> - 2 <E> <O>, O the conjugate of the
    logarithmic derivative of the amplitude *)
Theorem C80_gradient :
  forall (R V : Type) (RR : Scalar R), exact_arithmetic R -> associative_product R -> distributive_product R ->
  forall (E : @env R) (J : internal) (Iq : qr_names) (Is : svd_names) (L : qr_lapack R)
    (gesvd : nat -> nat -> list R -> bool * (list V * list R * list R)) (vzero vjunk : V) (greater : V -> V -> bool) (of_real : V -> R),
  NoDup [i_contract_0 J; i_contract_1 J; i_contract_2 J] -> own_names Iq Is -> qr_sound L -> svd_sound of_real vzero greater gesvd -> strict_order greater ->
  forall (M N cut d : nat) (dim : bond -> nat), 0 < cut ->
  forall (real : bool) (of_nat : nat -> R) (T : nat -> nat -> tensor unit R) (i j : nat) (samples : list (@spins R * R * R)) (conf : list (nat -> nat -> Z)),
  i < M -> j < N -> rows_within M N dim cut -> fits_spin M N dim d i j (T i j) ->
  Forall2 (fun smp s => configured E J M N dim d T (fst (fst smp)) s) samples conf ->
  let n := of_nat (length samples) in
  let O p u v l r := fun ss : (@spins R * R * R) * (nat -> nat -> Z) => log_derivative real M N dim T (snd ss) (snd (fst (fst ss))) i j p u v l r in
  unless_reported L gesvd
    (fun g => fits_spin M N dim d i j g /\ forall p u v l r, p < d -> u < size_up dim i j -> v < size_down M dim i j -> l < size_left dim i j -> r < size_right N dim i j ->
      spin_elements g p u v l r =
      rsub (rmul (of_nat 2) (rdiv (rsum (map (fun ss => rmul (O p u v l r ss) (snd (fst ss))) (combine samples conf))) n))
           (rmul (rmul (of_nat 2) (rdiv (rsum (map snd samples)) n)) (rdiv (rsum (map (O p u v l r) (combine samples conf))) n)))
    (gradient_at E J Iq Is L gesvd vzero vjunk greater of_real M N cut real of_nat d (lattice_of M N T) samples i j).
Proof. exact @gradient_configured. Qed.
Print Assumptions C80_gradient.

(** one site, the tensor (1, 2) replaced by (5, 7) after spin 0 was set: the amplitude is 1, not 5 *)
Definition one79 (x y : Z) : tensor unit Z := filled [phys] [mkEdge false [(tt, 2)]] (fun _ p => if Nat.eqb p 0 then x else y).
Definition J78 := mkInternal 101 102 103 104 105 106.
Definition Iq78 := mkQrNames 203 204.
Definition Is78 := mkSvdNames 201 202.
Definition dim78 (b : bond) : nat := 2.
Lemma one79_fits : forall x y, fits_spin 1 1 dim78 2 0 0 (one79 x y).
Proof. intros x y. constructor; [now apply (filled_wf _ _ _ _ _)|discriminate|reflexivity|reflexivity|reflexivity|reflexivity|reflexivity|intros n Hn; cbn in Hn; cbn; intuition]. Qed.
Theorem C79_tensors_changed_refuted :
  ~ (forall (M N cut d : nat) (dim : bond -> nat), 0 < cut ->
     forall (T : nat -> nat -> tensor unit Z) (actions : list (@action Z)), 0 < M -> 0 < N ->
     (forall i j, i < M -> j < N -> fits_spin M N dim d i j (T i j)) -> rows_within M N dim cut ->
     Forall (proper M N dim d) actions -> (forall i j, i < M -> j < N -> spin_after actions i j <> (-1)%Z) ->
     exists c, run exE J78 M N actions (lattice_of M N T, fresh M N) = Ok (lattice_of M N (tensor_after T actions), c) /\
       unless_reported zqr zsvd (fun v => v = psi M N dim (tensor_after T actions) (spin_after actions))
         (spin_amplitude exE J78 Iq78 Is78 zqr zsvd 0%Z (-9)%Z zgreater (fun x => x) M N cut c)).
Proof.
  intro H. destruct (H 1 1 4 2 dim78 ltac:(lia) (fun _ _ => one79 1 2) [SetSpin 0 0 0%Z; SetTensor 0 0 (one79 5 7)] ltac:(lia) ltac:(lia)) as [c [H1 H2]].
  - intros i j Hi Hj. assert (i = 0) as -> by lia. assert (j = 0) as -> by lia. apply one79_fits.
  - intros i j Hi. lia.
  - repeat apply Forall_cons; [|split; [lia|split; [lia|apply one79_fits]]|apply Forall_nil]. cbn. lia.
  - intros i j Hi Hj. assert (i = 0) as -> by lia. assert (j = 0) as -> by lia. discriminate.
  - vm_compute in H1. injection H1 as <-. vm_compute in H2. discriminate H2.
Qed.
Print Assumptions C79_tensors_changed_refuted.

(** two rows of two sites; spins 0 and 1 *)
Definition edges78 (i j : nat) : list (nat * nat) :=
  [(phys, 2)] ++ match i with 0 => [] | S i' => [(nm Up 0, dim78 (Below i' j))] end ++ (if 1 + i <? 2 then [(nm Down 0, dim78 (Below i j))] else []) ++
  match j with 0 => [] | S j' => [(nm Lft 0, dim78 (Right_of i j'))] end ++ (if 1 + j <? 2 then [(nm Rgt 0, dim78 (Right_of i j))] else []).
Definition make78 (f : nat -> Z) (i j : nat) : tensor unit Z := filled (map fst (edges78 i j)) (map (fun p => mkEdge false [(tt, snd p)]) (edges78 i j)) (fun _ p => f p).
Definition T78 (i j : nat) : tensor unit Z :=
  let n := fold_right Nat.mul 1 (map snd (tl (edges78 i j))) in
  make78 (fun p => if Nat.eqb (Nat.modulo p n) 0 then Z.of_nat (9 - i - j + p) else if Nat.eqb (Nat.modulo p n) (n - 1) then Z.of_nat (i + j + 1 + Nat.div p n) else 0%Z) i j.
Definition actions78 : list (@action Z) := [SetSpin 0 0 1%Z; SetSpin 0 1 0%Z; SetSpin 1 0 0%Z; SetSpin 1 1 (-1)%Z; Renew; SetSpin 0 1 1%Z; SetSpin 0 0 1%Z; SetSpin 1 1 1%Z].
Definition spins78 (i j : nat) : Z := match i, j with 1, 0 => 0%Z | _, _ => 1%Z end.
Definition amp78 (c : @spins Z) := spin_amplitude exE J78 Iq78 Is78 zqr zsvd 0%Z (-9)%Z zgreater (fun x => x) 2 2 4 c.
Lemma fits78 : forall f i j, i < 2 -> j < 2 -> fits_spin 2 2 dim78 2 i j (make78 f i j).
Proof.
  intros f i j Hi Hj. assert (D : (i = 0 \/ i = 1) /\ (j = 0 \/ j = 1)) by lia. clear Hi Hj. destruct D as [[-> | ->] [-> | ->]];
    (constructor; [now apply (filled_wf _ _ _ _ _)|discriminate|reflexivity|reflexivity|reflexivity|reflexivity|reflexivity|intros n Hn; cbn in Hn; cbn; intuition]).
Qed.
Example C78_hypotheses : (forall i j, i < 2 -> j < 2 -> fits_spin 2 2 dim78 2 i j (T78 i j)) /\ rows_within 2 2 dim78 4 /\ columns_within 2 2 dim78 4 /\
  Forall (proper 2 2 dim78 2) actions78 /\ Forall keeps_tensors actions78 /\ (forall i j, i < 2 -> j < 2 -> spin_after actions78 i j = spins78 i j) /\
  replaceable_spins 2 2 2 [(0, 0, 1%Z); (1, 0, 1%Z)].
Proof.
  split; [intros; now apply fits78|]. split; [intros i j Hi; destruct i as [|i]; [|lia]; destruct j as [|[|j]]; cbn; lia|]. split; [intros i j Hj; destruct j as [|j]; [|lia]; destruct i as [|[|i]]; cbn; lia|].
  split; [repeat (apply Forall_cons; [cbn; try exact I; lia|]); apply Forall_nil|]. split; [repeat constructor|].
  split; [intros i j Hi Hj; assert (D : (i = 0 \/ i = 1) /\ (j = 0 \/ j = 1)) by lia; clear Hi Hj; destruct D as [[-> | ->] [-> | ->]]; reflexivity|].
  constructor; lia.
Qed.
Example C78_example : exists c, run exE J78 2 2 actions78 (lattice_of 2 2 T78, fresh 2 2) = Ok (lattice_of 2 2 T78, c) /\
  amp78 c = Ok (psi 2 2 dim78 T78 spins78, false) /\ psi 2 2 dim78 T78 spins78 <> 0%Z.
Proof. eexists. split; [vm_compute; reflexivity|]. split; [vm_compute; reflexivity|vm_compute; discriminate]. Qed.
Definition c78 (actions : list (@action Z)) : @spins Z := match run exE J78 2 2 actions (lattice_of 2 2 T78, fresh 2 2) with Ok (_, c) => c | _ => fresh 2 2 end.
Definition replaced78 (l : list (nat * nat * Z)) := spin_replaced exE J78 Iq78 Is78 zqr zsvd 0%Z (-9)%Z zgreater (fun x => x) 2 2 4 (lattice_of 2 2 T78) (c78 actions78) l 13776%Z " "%char.
Example C78_replaced_example : psi 2 2 dim78 T78 spins78 = 13776%Z /\ replaced78 [(0, 0, 1%Z); (1, 0, 1%Z)] = Ok (20664%Z, false) /\
  psi 2 2 dim78 T78 (spins_with spins78 [(0, 0, 1%Z); (1, 0, 1%Z)]) = 20664%Z /\ replaced78 [(0, 0, 1%Z); (0, 1, 1%Z)] = Ok (13776%Z, false).
Proof. split; [vm_compute; reflexivity|]. split; [vm_compute; reflexivity|]. split; vm_compute; reflexivity. Qed.
(** tensors replaced after the spin was unset, and before a copy *)
Definition actions79 : list (@action Z) := actions78 ++ [SetSpin 0 0 (-1)%Z; SetTensor 0 0 (make78 (fun p => Z.of_nat (if Nat.eqb p 0 then 3 else 0)) 0 0); SetSpin 0 0 0%Z; SetTensor 0 1 (T78 0 1); Renew].
Example C79_example : exists c, run exE J78 2 2 actions79 (lattice_of 2 2 T78, fresh 2 2) = Ok (lattice_of 2 2 (tensor_after T78 actions79), c) /\
  amp78 c = Ok (psi 2 2 dim78 (tensor_after T78 actions79) (spin_after actions79), false) /\ psi 2 2 dim78 (tensor_after T78 actions79) (spin_after actions79) = 3168%Z.
Proof. eexists. split; [vm_compute; reflexivity|]. split; vm_compute; reflexivity. Qed.
Example C79_careful : careful actions79 /\ Forall (proper 2 2 dim78 2) actions79.
Proof.
  split.
  - intros before i j t after H. unfold actions79, actions78 in H. cbn [app] in H.
    do 13 (destruct before as [|a before]; [cbn [app] in H; try discriminate H; injection H as <- <- _ <-; auto; right; left; cbn; auto|cbn [app] in H; injection H as <- H]).
    destruct before; discriminate H.
  - repeat (apply Forall_cons; [first [exact I | split; [lia|split; [lia|first [apply fits78; lia | cbn; lia]]]]|]). apply Forall_nil.
Qed.
(** two samples that differ in the spin of a site *)
Definition samples80 := [(c78 actions78, 1%Z, 3%Z); (c78 (actions78 ++ [SetSpin 0 0 0%Z]), 1%Z, 5%Z)].
Definition conf80 := [spins78; spins_with spins78 [(0, 0, 0%Z)]].
Example C80_hypotheses : Forall2 (fun smp s => configured exE J78 2 2 dim78 2 T78 (fst (fst smp)) s) samples80 conf80.
Proof.
  assert (G : forall a s, Forall (proper 2 2 dim78 2) a -> Forall keeps_tensors a -> (forall i j, i < 2 -> j < 2 -> s i j = spin_after a i j /\ s i j <> (-1)%Z) ->
    (exists o, run exE J78 2 2 a (lattice_of 2 2 T78, fresh 2 2) = Ok (o, c78 a)) -> configured exE J78 2 2 dim78 2 T78 (c78 a) s).
  { intros a s H1 H2 H3 [o H4]. exists T78, a, o. split; [intros; now apply fits78|]. split; [exact H1|]. split; [|split; [exact H4|]].
    - intros b i j t l ->. apply Forall_app in H2 as [_ H2]. apply Forall_inv in H2. destruct H2.
    - intros i j Hi Hj. split; [|now apply H3]. clear - H2. assert (X : forall l t, Forall (@keeps_tensors Z) l -> t = fold_left (fun t (a : @action Z) => match a with SetTensor i' j' t' => if Nat.eqb i' i && Nat.eqb j' j then t' else t | _ => t end) l t).
      { induction l as [|x l IH]; intros t Hl; [reflexivity|]. pose proof (Forall_inv Hl) as Hx. cbn [fold_left]. destruct x; [|destruct Hx|]; exact (IH t (Forall_inv_tail Hl)). }
      exact (X a (T78 i j) H2). }
  destruct C78_hypotheses as [_ [_ [_ [P [K [S0 _]]]]]].
  constructor; [|constructor; [|constructor]]; cbn [fst snd]; apply G.
  - exact P.
  - exact K.
  - intros i j Hi Hj. rewrite (S0 i j Hi Hj). split; [reflexivity|]. destruct i as [|[|i]], j as [|[|j]]; try lia; discriminate.
  - eexists. vm_compute. reflexivity.
  - apply Forall_app. split; [exact P|]. constructor; [cbn; lia|constructor].
  - apply Forall_app. split; [exact K|]. repeat constructor.
  - intros i j Hi Hj. assert (D : (i = 0 \/ i = 1) /\ (j = 0 \/ j = 1)) by lia. clear Hi Hj. destruct D as [[-> | ->] [-> | ->]]; split; try reflexivity; discriminate.
  - eexists. vm_compute. reflexivity.
Qed.
Example C80_example : exists g, gradient_at exE J78 Iq78 Is78 zqr zsvd 0%Z (-9)%Z zgreater (fun x => x) 2 2 4 true Z.of_nat 2 (lattice_of 2 2 T78) samples80 0 0 = Ok (g, false) /\
  map (fun q => spin_elements g (fst q) 0 (snd q) 0 (snd q)) [(0, 0); (0, 1); (1, 0); (1, 1)] = [1056; 24; -1056; -24]%Z /\
  log_derivative true 2 2 dim78 T78 (spins_with spins78 [(0, 0, 0%Z)]) 1%Z 0 0 0 0 0 0 0 = 1056%Z.
Proof. eexists. split; [vm_compute; reflexivity|]. split; vm_compute; reflexivity. Qed.
