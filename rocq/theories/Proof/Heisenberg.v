(** The product of two spins exchanges spins; it keeps the number of spins that are down.  The setters of terms. *)
From Coq Require Import List Bool Arith ZArith Lia Ring Setoid Morphisms.
From Verif Require Spec.Bonds Model.Schedule.
From Verif Require Import Base.Outcome Base.SMap Model.Symmetry Model.Edge Model.Core Model.EdgeOperator Model.Elementwise Model.Contract Model.SimpleTensor Model.Exact Model.NetworkNew Model.SpinOperators
  Spec.Blocks Spec.Relabel Spec.Contract Spec.Plain Spec.Grid Spec.Svd Spec.SquareLattice Spec.ExactState Spec.ExactOperator Spec.LocalUpdate Spec.SpinModel
  Proof.SymmetryFacts Proof.LoopFacts Proof.SumFacts Proof.CoreFacts Proof.PlainFacts Proof.LineMath Proof.GridSum Proof.ExactApply Proof.ExactObserve Proof.SpinOpFacts.
Import ListNotations.

Section Counting.
  Definition put_one (g : nat * nat -> nat) (p : nat * nat) (v : nat) (x : nat * nat) : nat := if pair_eqb p x then v else g x.
  Notation total g l := (fold_right Nat.add 0 (map g l)).
  Lemma total_ext : forall (g h : nat * nat -> nat) l, (forall x, In x l -> g x = h x) -> total g l = total h l.
  Proof. intros g h l H. f_equal. now apply map_ext_in. Qed.
  Lemma total_put : forall g p v l, NoDup l -> In p l -> total (put_one g p v) l + g p = total g l + v.
  Proof.
    intros g p v l ND. induction ND as [|x l Hx ND IH]; [intros []|]. intros [->|Hp]; cbn [map fold_right].
    - rewrite (total_ext (put_one g p v) g l).
      + unfold put_one at 1. destruct (pair_spec p p); [lia|congruence].
      + intros y Hy. unfold put_one. destruct (pair_spec p y) as [->|_]; [contradiction|reflexivity].
    - specialize (IH Hp). unfold put_one at 1. destruct (pair_spec p x) as [->|_]; [contradiction|]. lia.
  Qed.
  Lemma down_swapped : forall m n p q s, on_lattice m n [p; q] -> spins_down m n (swapped p q s) = spins_down m n s.
  Proof.
    intros m n p q s [ND HL]. assert (Hpq : p <> q) by (inversion ND as [|? ? A _]; intros ->; apply A; now left).
    inversion HL as [|? ? Hp HL']. inversion HL' as [|? ? Hq _]. subst. apply (in_sites_iff m n) in Hp, Hq. unfold spins_down.
    set (g := fun x : nat * nat => s (fst x) (snd x)).
    rewrite (total_ext _ (put_one (put_one g q (g p)) p (g q))).
    - assert (A := total_put (put_one g q (g p)) p (g q) (sites m n) (NoDup_sites m n) Hp). assert (B := total_put g q (g p) (sites m n) (NoDup_sites m n) Hq).
      replace (put_one g q (g p) p) with (g p) in A by (unfold put_one; destruct (pair_spec q p); [congruence|reflexivity]).
      cbv beta in A, B |- *. lia.
    - intros [i j] _. unfold swapped, put_one, g. cbn [fst snd]. reflexivity.
  Qed.
  Lemma within_swapped : forall m n d p q s, on_lattice m n [p; q] -> spins_within m n d s -> spins_within m n d (swapped p q s).
  Proof.
    intros m n d p q s [_ HL] H i j Hi Hj. inversion HL as [|? ? Hp HL']. inversion HL' as [|? ? Hq _]. subst. unfold swapped. destruct (pair_eqb p (i, j)), (pair_eqb q (i, j)); try apply H; tauto.
  Qed.
End Counting.

Section Exchange.
  Context {R : Type} {RR : Scalar R}.
  Hypotheses (EA : exact_arithmetic R) (MA : associative_product R) (MD : distributive_product R).
  Notation "x +r y" := (radd x y) (at level 50, left associativity).
  Notation "x *r y" := (rmul x y) (at level 40, left associativity).
  Add Ring scalars91 : (semi_ring EA MA MD).
  Variables (half mquarter : R) (t : tensor unit R).
  Hypothesis HT : forall a b c d, a < 2 -> b < 2 -> c < 2 -> d < 2 ->
      operator_element 2 t [a; b] [c; d] = (if (c =? b) && (d =? a) then half else rzero) +r (if (c =? a) && (d =? b) then mquarter else rzero).
  Theorem exchange : forall p q f s, p <> q -> extensional f -> s (fst p) (snd p) < 2 -> s (fst q) (snd q) < 2 ->
    applied 2 [p; q] t f s = half *r f (swapped p q s) +r mquarter *r f s.
  Proof.
    intros p q f s Hpq Hf Hp Hq. unfold applied. cbn [length repeat map].
    rewrite (Hf (swapped p q s) (spins_put s [p; q] [s (fst q) (snd q); s (fst p) (snd p)])).
    2:{ intros i j. unfold swapped, spins_put. cbn [combine find fst snd]. destruct (pair_eqb p (i, j)), (pair_eqb q (i, j)); reflexivity. }
    rewrite (Hf s (spins_put s [p; q] [s (fst p) (snd p); s (fst q) (snd q)])).
    2:{ intros i j. unfold spins_put. cbn [combine find fst snd]. destruct (pair_spec p (i, j)) as [->|_]; [reflexivity|]. destruct (pair_spec q (i, j)) as [->|_]; reflexivity. }
    generalize dependent (s (fst q) (snd q)). generalize dependent (s (fst p) (snd p)). intros c Hc d Hd.
    cbn [Sums]. unfold Sum. cbn [seq map rsum fold_right].
    rewrite !HT by lia. destruct c as [|[|c]], d as [|[|d]]; try lia; cbn [Nat.eqb andb]; ring.
  Qed.
  Lemma swapped_sym : forall p q s i j, p <> q -> swapped p q s i j = swapped q p s i j.
  Proof. intros p q s i j H. unfold swapped. destruct (pair_spec p (i, j)) as [->|_], (pair_spec q (i, j)) as [->|_]; congruence. Qed.
  Theorem exchange_order : forall p q f s, p <> q -> extensional f -> s (fst p) (snd p) < 2 -> s (fst q) (snd q) < 2 -> applied 2 [p; q] t f s = applied 2 [q; p] t f s.
  Proof.
    intros p q f s Hn Hf Hp Hq. rewrite (exchange p q f s Hn Hf Hp Hq), (exchange q p f s (not_eq_sym Hn) Hf Hq Hp). f_equal. f_equal. apply Hf. intros i j. now apply swapped_sym.
  Qed.
  Lemma applied_ext : forall d ps A f, extensional f -> extensional (applied (RR := RR) d ps A f).
  Proof.
    intros d ps A f Hf s s' H. unfold applied. apply Sums_ext. intros q _. f_equal.
    - apply Hf. intros i j. unfold spins_put. destruct (find _ _); auto.
    - f_equal. apply map_ext. intros [i j]. apply H.
  Qed.
  Variables (m n k : nat).
  Lemma sector_applied : forall p q f, on_lattice m n [p; q] -> extensional f -> in_sector m n k f -> in_sector m n k (applied 2 [p; q] t f).
  Proof.
    intros p q f HL Hf Hs s Hw Hd. destruct HL as [ND HL]. inversion HL as [|? ? Hp HL']. inversion HL' as [|? ? Hq _]. subst.
    assert (Hpq : p <> q) by (inversion ND as [|? ? A _]; intros ->; apply A; now left).
    rewrite exchange; [|assumption|assumption|apply Hw; tauto|apply Hw; tauto]. rewrite (Hs s Hw Hd), (Hs (swapped p q s)).
    - ring.
    - now apply within_swapped.
    - now rewrite down_swapped.
  Qed.
  Lemma sector_energy : forall terms f, pair_terms m n t terms -> extensional f -> in_sector m n k f -> in_sector m n k (energy_of 2 terms f).
  Proof.
    intros terms f HT' Hf Hs s Hw Hd. unfold energy_of. induction HT' as [|[ps A] terms [H1 [p [q [H2 H3]]]] _ IH]; [reflexivity|]. cbn [map rsum fold_right fst snd] in *. subst ps A.
    rewrite (sector_applied p q f H3 Hf Hs s Hw Hd). fold (rsum (map (fun po : list (nat * nat) * tensor unit R => applied 2 (fst po) (snd po) f s) terms)). rewrite IH. ring.
  Qed.
  Lemma energy_ext : forall terms f, extensional f -> extensional (energy_of (RR := RR) 2 terms f).
  Proof. intros terms f Hf s s' H. unfold energy_of. f_equal. apply map_ext. intros [ps A]. now apply applied_ext. Qed.
  Hypothesis SB : subtracting R.
  Lemma sector_shifted : forall a terms j f, pair_terms m n t terms -> extensional f -> in_sector m n k f -> extensional (shifted_times 2 a terms j f) /\ in_sector m n k (shifted_times 2 a terms j f).
  Proof.
    intros a terms j f HT' Hf Hs. induction j as [|j [IH1 IH2]]; [now split|]. cbn [shifted_times]. set (g := shifted_times 2 a terms j f) in *. split.
    - intros s s' H. unfold shifted. now rewrite (IH1 s s' H), (energy_ext terms g IH1 s s' H).
    - intros s Hw Hd. unfold shifted. rewrite (IH2 s Hw Hd), (sector_energy terms g HT' IH1 IH2 s Hw Hd). destruct (SB rzero rzero) as [Q _]. rewrite (ea_add_0 R EA) in Q.
      transitivity (rsub rzero rzero : R); [|exact Q]. f_equal. ring.
  Qed.
End Exchange.

Section Setters.
  Context {H : Type}.
  Notation terms := (list (Schedule.positions * H)).
  Notation keys_set key ks h l0 := (fold_left (fun acc x => mset (key x) h acc) ks l0).
  Lemma keys_in : forall A (key : A -> Schedule.positions) (h : H) l (l0 : terms) x, In x l -> mfind (key x) (keys_set key l h l0) = Some h.
  Proof.
    intros A key h l l0 x Hx. rewrite <- fold_left_rev_right. apply in_rev in Hx. revert Hx. generalize (rev l). clear l. intros l.
    induction l as [|y l IH]; [intros []|]. cbn [fold_right]. intros Hx. destruct (list_eq_dec (fun a b : Schedule.site => ltac:(decide equality; apply Z.eq_dec)) (key x) (key y)) as [Q|Q].
    - rewrite Q. apply mfind_mset_same.
    - rewrite mfind_mset_other by exact Q. apply IH. destruct Hx as [->|Hx]; [congruence|exact Hx].
  Qed.
  Lemma keys_out : forall A (key : A -> Schedule.positions) (h : H) l (l0 : terms) p, ~ (exists x, In x l /\ p = key x) -> mfind p (keys_set key l h l0) = mfind p l0.
  Proof.
    intros A key h l. induction l as [|x l IH]; intros l0 p Hp; [reflexivity|]. cbn [fold_left]. rewrite IH.
    - apply mfind_mset_other. intros ->. apply Hp. exists x. split; [now left|reflexivity].
    - intros [y [Hy ->]]. apply Hp. exists y. split; [now right|reflexivity].
  Qed.
  Lemma keys_sorted : forall A (key : A -> Schedule.positions) (h : H) l (l0 : terms), msorted l0 -> msorted (keys_set key l h l0).
  Proof. intros A key h l. induction l as [|x l IH]; intros l0 H0; [exact H0|]. cbn [fold_left]. apply IH. now apply mset_sorted. Qed.
  Lemma in_loop : forall m n i j, In (i, j) (SpinOperators.loop m n) <-> Bonds.inside m n (i, j).
  Proof.
    intros m n i j. unfold SpinOperators.loop, Bonds.inside. cbn [fst snd]. rewrite in_flat_map. split.
    - intros [a [Ha Hb]]. apply in_map_iff in Hb as [b [Q Hb]]. apply in_seq in Ha, Hb. injection Q as <- <-. lia.
    - intros [Hi Hj]. exists (Z.to_nat i). split; [apply in_seq; lia|]. apply in_map_iff. exists (Z.to_nat j). split; [f_equal; lia|apply in_seq; lia].
  Qed.
  Lemma set_site : forall M N h (l : terms) p, (site_term M N p -> mfind p (set_all_site M N h l) = Some h) /\ (~ site_term M N p -> mfind p (set_all_site M N h l) = mfind p l).
  Proof.
    intros M N h l p. split.
    - intros [[i j] [-> Ha]]. apply (keys_in _ (fun ij => [ij])). now apply in_loop.
    - intros Hn. apply (keys_out _ (fun ij => [ij])). intros [[i j] [Hx ->]]. apply Hn. exists (i, j). split; [reflexivity|now apply in_loop].
  Qed.
  Definition below_key (ij : Schedule.site) : Schedule.positions := [ij; (fst ij + 1, snd ij)%Z].
  Definition right_key (ij : Schedule.site) : Schedule.positions := [ij; (fst ij, snd ij + 1)%Z].
  Lemma vertical_keys : forall M N h (l : terms), set_all_vertical_bond M N h l = keys_set below_key (SpinOperators.loop (M - 1) N) h l.
  Proof. intros M N h l. unfold set_all_vertical_bond. revert l. induction (SpinOperators.loop (M - 1) N) as [|[i j] L IH]; intros l; [reflexivity|]. cbn [fold_left]. apply IH. Qed.
  Lemma horizontal_keys : forall M N h (l : terms), set_all_horizontal_bond M N h l = keys_set right_key (SpinOperators.loop M (N - 1)) h l.
  Proof. intros M N h l. unfold set_all_horizontal_bond. revert l. induction (SpinOperators.loop M (N - 1)) as [|[i j] L IH]; intros l; [reflexivity|]. cbn [fold_left]. apply IH. Qed.
  Lemma set_vertical : forall M N h (l : terms) p, (below_term M N p -> mfind p (set_all_vertical_bond M N h l) = Some h) /\ (~ below_term M N p -> mfind p (set_all_vertical_bond M N h l) = mfind p l).
  Proof.
    intros M N h l p. rewrite vertical_keys. split.
    - intros [i [j [-> [Ha Hb]]]]. apply (keys_in _ below_key h _ l (i, j)). apply in_loop. unfold Bonds.inside in *. cbn [fst snd] in *. lia.
    - intros Hn. apply keys_out. intros [[i j] [Hx ->]]. apply Hn. exists i, j. apply in_loop in Hx. split; [reflexivity|]. unfold Bonds.inside in *. cbn [fst snd] in *. lia.
  Qed.
  Lemma set_horizontal : forall M N h (l : terms) p, (right_term M N p -> mfind p (set_all_horizontal_bond M N h l) = Some h) /\ (~ right_term M N p -> mfind p (set_all_horizontal_bond M N h l) = mfind p l).
  Proof.
    intros M N h l p. rewrite horizontal_keys. split.
    - intros [i [j [-> [Ha Hb]]]]. apply (keys_in _ right_key h _ l (i, j)). apply in_loop. unfold Bonds.inside in *. cbn [fst snd] in *. lia.
    - intros Hn. apply keys_out. intros [[i j] [Hx ->]]. apply Hn. exists i, j. apply in_loop in Hx. split; [reflexivity|]. unfold Bonds.inside in *. cbn [fst snd] in *. lia.
  Qed.
  Lemma set_sorted : forall M N h (l : terms), msorted l -> msorted (set_all_site M N h l) /\ msorted (set_all_vertical_bond M N h l) /\ msorted (set_all_horizontal_bond M N h l).
  Proof. intros M N h l Hl. rewrite vertical_keys, horizontal_keys. unfold set_all_site. repeat split; now apply keys_sorted. Qed.
End Setters.
