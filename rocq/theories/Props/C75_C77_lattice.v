(** C75: the contraction of a square lattice with some sites replaced.  C76: the environment of a site.  C77: refused requests.
    [lattice_of M N site]: M rows of N tensors without symmetry; [fits_site]: a tensor with the edges U, D, L, R that its position asks
    for, of the dimensions of the bonds; [network_sum]: the sum over all indices of all bonds of the product of the elements of all sites
    (Spec/Grid.v); [lines_within]: the products of the dimensions of the bonds between two lines do not exceed [cut] (Spec/SquareLattice.v).
    [L], [gesvd]: LAPACK; [unless_reported]: the statement may fail if a routine of LAPACK failed, which was reported.
    Exact arithmetic. *)
From Coq Require Import String Ascii List Bool Arith ZArith Lia.
From Verif Require Import Base.Outcome Base.SMap Model.Symmetry Model.Edge Model.Core Model.EdgeOperator Model.Contract Model.Misc Model.Qr Model.Svd Model.Auxiliaries
  Spec.Blocks Spec.Relabel Spec.Contract Spec.Plain Spec.Lapack Spec.Grid Spec.Truncate Spec.Svd Spec.SquareLattice Proof.CoreFacts Proof.LatticeAmplitude
  Proof.ScalarZ Proof.ExTensors Proof.ExFilled Proof.ExQr Proof.ExSvd.
Import ListNotations.

(** ** C75.  No site, any one site or two neighbours replaced, contracted by rows or by columns *)
Theorem C75_amplitude :
  forall (R V : Type) (RR : Scalar R), exact_arithmetic R -> associative_product R -> distributive_product R ->
  forall (E : @env R) (J : internal) (Iq : qr_names) (Is : svd_names) (L : qr_lapack R)
    (gesvd : nat -> nat -> list R -> bool * (list V * list R * list R)) (vzero vjunk : V) (greater : V -> V -> bool) (of_real : V -> R),
  NoDup [i_contract_0 J; i_contract_1 J; i_contract_2 J] -> own_names Iq Is -> qr_sound L -> svd_sound of_real vzero greater gesvd -> strict_order greater ->
  forall (M N cut : nat) (dim : bond -> nat) (site : nat -> nat -> tensor unit R),
  (forall i j, i < M -> j < N -> fits_site M N dim i j (site i j)) -> 0 < cut ->
  forall (replacement : list (nat * nat * tensor unit R)) (hint : ascii), 0 < M -> 0 < N -> replaceable M N dim replacement ->
  lines_within (column_wise replacement hint) M N dim cut ->
  unless_reported L gesvd (fun v => v = network_sum M N dim (fun i j => elements (replaced site replacement i j)))
    (amplitude E J Iq Is L gesvd vzero vjunk greater of_real M N cut (lattice_of M N site) replacement hint).
Proof. exact @amplitude_ok. Qed.
Print Assumptions C75_amplitude.

(** ** C76.  The environment of site (i, j): an edge for every edge of the site, and for every tensor x that fits there the sum of
    environment times x is the contraction of the lattice with x in place of the site.  No hole: the contraction of the lattice *)
Theorem C76_environment :
  forall (R V : Type) (RR : Scalar R), exact_arithmetic R -> associative_product R -> distributive_product R ->
  forall (E : @env R) (J : internal) (Iq : qr_names) (Is : svd_names) (L : qr_lapack R)
    (gesvd : nat -> nat -> list R -> bool * (list V * list R * list R)) (vzero vjunk : V) (greater : V -> V -> bool) (of_real : V -> R),
  NoDup [i_contract_0 J; i_contract_1 J; i_contract_2 J] -> own_names Iq Is -> qr_sound L -> svd_sound of_real vzero greater gesvd -> strict_order greater ->
  forall (M N cut : nat) (dim : bond -> nat) (site : nat -> nat -> tensor unit R),
  (forall i j, i < M -> j < N -> fits_site M N dim i j (site i j)) -> 0 < cut ->
  forall (i j : nat) (hint : ascii), i < M -> j < N -> lines_within (Ascii.eqb hint "v"%char) M N dim cut ->
  unless_reported L gesvd
    (fun e => faces (site i j) e /\ forall x, fits_site M N dim i j x -> put_in M N dim i j e x = network_sum M N dim (fun i' j' => elements (put_site site i j x i' j')))
    (environment E J Iq Is L gesvd vzero vjunk greater of_real M N cut (lattice_of M N site) [(i, j)] hint).
Proof. exact @environment_ok. Qed.
Print Assumptions C76_environment.

Theorem C76_no_hole :
  forall (R V : Type) (RR : Scalar R), exact_arithmetic R -> associative_product R -> distributive_product R ->
  forall (E : @env R) (J : internal) (Iq : qr_names) (Is : svd_names) (L : qr_lapack R)
    (gesvd : nat -> nat -> list R -> bool * (list V * list R * list R)) (vzero vjunk : V) (greater : V -> V -> bool) (of_real : V -> R),
  NoDup [i_contract_0 J; i_contract_1 J; i_contract_2 J] -> own_names Iq Is -> qr_sound L -> svd_sound of_real vzero greater gesvd -> strict_order greater ->
  forall (M N cut : nat) (dim : bond -> nat) (site : nat -> nat -> tensor unit R),
  (forall i j, i < M -> j < N -> fits_site M N dim i j (site i j)) -> 0 < cut ->
  forall (hint : ascii), 0 < M -> 0 < N -> rows_within M N dim cut ->
  unless_reported L gesvd (fun e => to_scalar e = Ok (network_sum M N dim (fun i j => elements (site i j))))
    (environment E J Iq Is L gesvd vzero vjunk greater of_real M N cut (lattice_of M N site) [] hint).
Proof. exact @environment_0_ok. Qed.
Print Assumptions C76_no_hole.

(** ** C77.  Replacements (in the order of their positions) outside of the lattice, more than two, or two that are not neighbours; holes
    outside of the lattice or more than one *)
Theorem C77_outside :
  forall (R V : Type) (RR : Scalar R) (E : @env R) (J : internal) (Iq : qr_names) (Is : svd_names) (L : qr_lapack R)
    (gesvd : nat -> nat -> list R -> bool * (list V * list R * list R)) (vzero vjunk : V) (greater : V -> V -> bool) (of_real : V -> R)
    (M N cut : nat) (site : nat -> nat -> tensor unit R), 0 < cut ->
  forall (replacement : list (nat * nat * tensor unit R)) (hint : ascii), length replacement <= 2 -> neighbours replacement ->
  (exists i j x, In (i, j, x) replacement /\ ~ (i < M /\ j < N)) ->
  amplitude E J Iq Is L gesvd vzero vjunk greater of_real M N cut (lattice_of M N site) replacement hint = Throw OutOfRange.
Proof. exact @outside_refused. Qed.
Print Assumptions C77_outside.
Theorem C77_scattered :
  forall (R V : Type) (RR : Scalar R) (E : @env R) (J : internal) (Iq : qr_names) (Is : svd_names) (L : qr_lapack R)
    (gesvd : nat -> nat -> list R -> bool * (list V * list R * list R)) (vzero vjunk : V) (greater : V -> V -> bool) (of_real : V -> R)
    (M N cut : nat) (site : nat -> nat -> tensor unit R), 0 < cut ->
  forall (replacement : list (nat * nat * tensor unit R)) (hint : ascii), 2 < length replacement \/ ~ neighbours replacement ->
  exists msg, amplitude E J Iq Is L gesvd vzero vjunk greater of_real M N cut (lattice_of M N site) replacement hint = Throw (NotImplementedError msg).
Proof. exact @scattered_refused. Qed.
Print Assumptions C77_scattered.
Theorem C77_holes :
  forall (R V : Type) (RR : Scalar R) (E : @env R) (J : internal) (Iq : qr_names) (Is : svd_names) (L : qr_lapack R)
    (gesvd : nat -> nat -> list R -> bool * (list V * list R * list R)) (vzero vjunk : V) (greater : V -> V -> bool) (of_real : V -> R)
    (M N cut : nat) (site : nat -> nat -> tensor unit R), 0 < cut ->
  forall (holes : list (nat * nat)) (hint : ascii),
  (2 <= length holes -> exists msg, environment E J Iq Is L gesvd vzero vjunk greater of_real M N cut (lattice_of M N site) holes hint = Throw (NotImplementedError msg)) /\
  (forall i j, holes = [(i, j)] -> ~ (i < M /\ j < N) -> environment E J Iq Is L gesvd vzero vjunk greater of_real M N cut (lattice_of M N site) holes hint = Throw OutOfRange).
Proof. exact @holes_refused. Qed.
Print Assumptions C77_holes.

(** two rows of three sites; all bonds have dimension two except the one between the sites in the middle; no failure of LAPACK *)
Definition dim75 (b : bond) : nat := match b with Below 0 1 => 1 | _ => 2 end.
Definition edges75 (i j : nat) : list (nat * nat) :=
  match i with 0 => [] | S i' => [(nm Up 0, dim75 (Below i' j))] end ++ (if 1 + i <? 2 then [(nm Down 0, dim75 (Below i j))] else []) ++
  match j with 0 => [] | S j' => [(nm Lft 0, dim75 (Right_of i j'))] end ++ (if 1 + j <? 3 then [(nm Rgt 0, dim75 (Right_of i j))] else []).
Definition make75 (f : nat -> Z) (i j : nat) : tensor unit Z := filled (map fst (edges75 i j)) (map (fun p => mkEdge false [(tt, snd p)]) (edges75 i j)) (fun _ p => f p).
Definition site75 (i j : nat) : tensor unit Z :=
  make75 (fun p => if Nat.eqb p 0 then Z.of_nat (9 - i - j) else if Nat.eqb p (fold_right Nat.mul 1 (map snd (edges75 i j)) - 1) then Z.of_nat (i + j + 1) else 0%Z) i j.
Definition other75 (i j : nat) : tensor unit Z := make75 (fun p => Z.of_nat p + 1)%Z i j.
Definition Iq75 := mkQrNames 203 204.
Definition Is75 := mkSvdNames 201 202.
Definition J75 := mkInternal 101 102 103 104 105 106.
Definition run75 := amplitude exE J75 Iq75 Is75 zqr zsvd 0%Z (-9)%Z zgreater (fun x => x) 2 3 4 (lattice_of 2 3 site75).
Definition around75 := environment exE J75 Iq75 Is75 zqr zsvd 0%Z (-9)%Z zgreater (fun x => x) 2 3 4 (lattice_of 2 3 site75).
Definition network75 (l : list (nat * nat * tensor unit Z)) : Z := network_sum 2 3 dim75 (fun i j => elements (replaced site75 l i j)).

Lemma fits75 : forall f i j, i < 2 -> j < 3 -> fits_site 2 3 dim75 i j (make75 f i j).
Proof.
  intros f i j Hi Hj. assert (D : (i = 0 \/ i = 1) /\ (j = 0 \/ j = 1 \/ j = 2)) by lia. clear Hi Hj. destruct D as [[-> | ->] [-> | [-> | ->]]];
    (constructor; [now apply (filled_wf _ _ _ _ _)|discriminate|reflexivity|reflexivity|reflexivity|reflexivity|intros n Hn; cbn in Hn; cbn; intuition]).
Qed.
Example C75_C77_hypotheses : exact_arithmetic Z /\ associative_product Z /\ distributive_product Z /\ NoDup [i_contract_0 J75; i_contract_1 J75; i_contract_2 J75] /\ own_names Iq75 Is75 /\
  qr_sound zqr /\ svd_sound (fun x => x) 0%Z zgreater zsvd /\ strict_order zgreater /\ (forall i j, i < 2 -> j < 3 -> fits_site 2 3 dim75 i j (site75 i j)) /\
  rows_within 2 3 dim75 4 /\ columns_within 2 3 dim75 4 /\
  replaceable 2 3 dim75 [(1, 1, other75 1 1)] /\ replaceable 2 3 dim75 [(1, 0, other75 1 0); (1, 1, other75 1 1)] /\ replaceable 2 3 dim75 [(0, 1, other75 0 1); (1, 1, other75 1 1)].
Proof.
  split; [exact exact_Z|]. split; [exact associative_Z|]. split; [intros x y z; cbn; lia|]. split; [repeat constructor; cbn; intuition discriminate|].
  split; [split; [discriminate|]; split; [discriminate|]; intros [| | |]; cbn; repeat split; discriminate|].
  split; [exact zqr_sound|]. split; [exact zsvd_sound|]. split; [exact zgreater_order|]. split; [intros; now apply fits75|].
  split; [intros i j Hi; destruct i as [|i]; [|lia]; destruct j as [|[|[|j]]]; cbn; lia|].
  split; [intros i j Hj; destruct i as [|[|i]], j as [|[|j]]; cbn; lia|].
  split; [|split]; constructor; try (apply fits75); lia.
Qed.
Example C75_example :
  run75 [] " " = Ok (169488%Z, false) /\ network75 [] = 169488%Z /\
  run75 [(1, 1, other75 1 1)] " " = Ok (24384%Z, false) /\ run75 [(1, 1, other75 1 1)] "v" = Ok (24384%Z, false) /\ network75 [(1, 1, other75 1 1)] = 24384%Z /\
  run75 [(1, 0, other75 1 0); (1, 1, other75 1 1)] " " = Ok (network75 [(1, 0, other75 1 0); (1, 1, other75 1 1)], false) /\
  run75 [(0, 1, other75 0 1); (1, 1, other75 1 1)] " " = Ok (network75 [(0, 1, other75 0 1); (1, 1, other75 1 1)], false).
Proof. split; [vm_compute; reflexivity|]. split; [vm_compute; reflexivity|]. split; [vm_compute; reflexivity|]. split; [vm_compute; reflexivity|]. split; [vm_compute; reflexivity|]. split; vm_compute; reflexivity. Qed.
Example C76_example : exists e e', around75 [(1, 1)] " " = Ok (e, false) /\ around75 [(1, 1)] "v" = Ok (e', false) /\ t_names e = [nm Lft 4; nm Up 4; nm Rgt 4] /\
  put_in 2 3 dim75 1 1 e (other75 1 1) = 24384%Z /\ put_in 2 3 dim75 1 1 e' (other75 1 1) = 24384%Z /\ bind (around75 [] " ") (fun e => to_scalar (fst e)) = Ok 169488%Z.
Proof. eexists. eexists. split; [vm_compute; reflexivity|]. split; [vm_compute; reflexivity|]. split; [vm_compute; reflexivity|]. split; [vm_compute; reflexivity|]. split; vm_compute; reflexivity. Qed.
Example C77_example : run75 [(2, 0, other75 1 0)] " " = Throw OutOfRange /\ run75 [(0, 2, other75 0 2); (0, 3, other75 0 2)] " " = Throw OutOfRange /\
  (exists m, run75 [(0, 0, other75 0 0); (1, 1, other75 1 1)] " " = Throw (NotImplementedError m)) /\ around75 [(0, 5)] "v" = Throw OutOfRange.
Proof. split; [reflexivity|]. split; [reflexivity|]. split; [eexists; reflexivity|reflexivity]. Qed.
