(** The gradient computed from samples tends to the derivative of the energy. *)
From Coq Require Import List Bool Arith ZArith Reals Lra Lia.
From Verif Require Import Base.Outcome Model.Symmetry Model.Edge Model.Core Model.EdgeOperator Model.Contract Model.Auxiliaries Model.Spins
  Spec.Blocks Spec.Contract Spec.Plain Spec.Grid Spec.SquareLattice Spec.SpinLattice Spec.Energy Proof.ScheduleFacts.
Import ListNotations.
Open Scope nat_scope.

(** ** sums *)
Lemma total_ext : forall l f g, (forall t, In t l -> f t = g t) -> total l f = total l g.
Proof. intros l f g H. unfold total. f_equal. now apply map_ext_in. Qed.
Lemma total_plus : forall l f g, total l (fun t => f t + g t)%R = (total l f + total l g)%R.
Proof. induction l as [|x l IH]; intros f g; unfold total in *; cbn; [lra|]. rewrite IH. lra. Qed.
Lemma total_scale : forall l c f, total l (fun t => c * f t)%R = (c * total l f)%R.
Proof. induction l as [|x l IH]; intros c f; unfold total in *; cbn; [lra|]. rewrite IH. lra. Qed.
Lemma total_zero : forall l f, (forall t, In t l -> f t = 0%R) -> total l f = 0%R.
Proof. induction l as [|x l IH]; intros f H; unfold total in *; cbn; [reflexivity|]. rewrite (H x (or_introl eq_refl)), IH; [lra|]. intros t Ht. apply H. now right. Qed.
Lemma total_swap : forall l l' (f : list nat -> list nat -> R), total l (fun t => total l' (f t)) = total l' (fun t' => total l (fun t => f t t')).
Proof.
  induction l as [|x l IH]; intros l' f.
  - symmetry. now apply total_zero.
  - change (total (x :: l) (fun t => total l' (f t))) with (total l' (f x) + total l (fun t => total l' (f t)))%R. rewrite IH, <- total_plus. reflexivity.
Qed.
Lemma total_delta : forall l x (F : list nat -> R), NoDup l -> In x l ->
  total l (fun t => (if list_eq_dec Nat.eq_dec x t then 1 else 0) * F t)%R = F x.
Proof.
  induction l as [|y l IH]; intros x F N I; [destruct I|]. inversion N as [|? ? N1 N2]. subst.
  change (total (y :: l) ?f) with (f y + total l f)%R. cbn beta. destruct (list_eq_dec Nat.eq_dec x y) as [->|D].
  - rewrite total_zero; [lra|]. intros t Ht. destruct (list_eq_dec Nat.eq_dec y t) as [->|_]; [contradiction|lra].
  - destruct I as [->|I]; [contradiction|]. rewrite (IH x F N2 I). lra.
Qed.
Lemma total_picked : forall all picked (F : list nat -> R), NoDup all -> (forall t, In t picked -> In t all) ->
  fold_right Rplus 0%R (map F picked) = total all (fun t => (INR (occurrences t picked) * F t)%R).
Proof.
  intros all picked F N. induction picked as [|x picked IH]; intros H; cbn [map fold_right].
  - symmetry. apply total_zero. intros t _. cbn. lra.
  - rewrite IH by (intros t Ht; apply H; now right).
    rewrite <- (total_delta all x F N (H x (or_introl eq_refl))) at 1. rewrite <- total_plus. apply total_ext. intros t _.
    unfold occurrences. cbn [count_occ]. destruct (list_eq_dec Nat.eq_dec x t); [rewrite S_INR|]; lra.
Qed.
Lemma total_limit : forall l (f : nat -> list nat -> R) g, (forall t, In t l -> Un_cv (fun k => f k t) (g t)) -> Un_cv (fun k => total l (f k)) (total l g).
Proof.
  induction l as [|x l IH]; intros f g H.
  - intros e He. exists 0. intros k _. unfold total, R_dist. cbn. rewrite Rminus_diag_eq, Rabs_R0; [exact He|reflexivity].
  - change (total (x :: l) g) with (g x + total l g)%R.
    apply (CV_plus (fun k => f k x) (fun k => total l (f k))); [apply H; now left|]. apply IH. intros t Ht. apply H. now right.
Qed.
Lemma limit_ext : forall f g l, (forall k, f k = g k) -> Un_cv f l -> Un_cv g l.
Proof. intros f g l H C e He. destruct (C e He) as [n Hn]. exists n. intros k Hk. rewrite <- H. now apply Hn. Qed.
Lemma limit_const : forall c, Un_cv (fun _ => c) c.
Proof. intros c e He. exists 0. intros k _. unfold R_dist. rewrite Rminus_diag_eq, Rabs_R0; [exact He|reflexivity]. Qed.

(** the configurations are different *)
Lemma tuples_nodup : forall k l, NoDup l -> NoDup (tuples (repeat (l : list nat) k)).
Proof.
  induction k as [|k IH]; intros l N; cbn [repeat tuples]; [constructor; [intros []|constructor]|].
  pose proof (IH l N) as Nk. revert Nk. generalize (tuples (repeat l k)). intros ts Nk. clear IH. induction l as [|x l IHl]; cbn [flat_map]; [constructor|].
  inversion N as [|? ? N1 N2]. subst. apply nodup_app.
  - apply FinFun.Injective_map_NoDup; [|exact Nk]. intros a b H. now injection H.
  - now apply IHl.
  - intros t Ht Hf. apply in_map_iff in Ht as [a [<- _]]. apply in_flat_map in Hf as [y [Hy Hm]]. apply in_map_iff in Hm as [b [Hb _]]. injection Hb as -> _. contradiction.
Qed.

(** ** the amplitude is an affine function of every element *)
Section Affine.
  Lemma Sum_affine : forall k c (f g e : nat -> R), (forall a, f a = g a + c * e a)%R -> Sum k f = (Sum k g + c * Sum k e)%R.
  Proof.
    intros k c f g e H. unfold Sum. induction (seq 0 k) as [|x l IH]; cbn; [lra|]. unfold rsum in *. cbn in IH. rewrite IH, H. lra.
  Qed.
  Lemma Over_affine : forall (B : Type) same dim (bs : list B) c (f g e : (B -> nat) -> R) q, (forall a, f a = g a + c * e a)%R ->
    Over same dim bs f q = (Over same dim bs g q + c * Over same dim bs e q)%R.
  Proof.
    intros B same dim bs c f g e. induction bs as [|b bs IH]; intros q H; cbn [Over]; [apply H|]. apply Sum_affine. intros a. now apply IH.
  Qed.
  Lemma prod_same : forall l (F G : nat * nat -> R), (forall x, In x l -> F x = G x) -> rprod (map F l) = rprod (map G l).
  Proof. intros l F G H. unfold rprod. f_equal. now apply map_ext_in. Qed.
  Lemma prod_affine : forall l x0 c (F G H : nat * nat -> R), NoDup l -> In x0 l -> (F x0 = G x0 + c * H x0)%R ->
    (forall x, In x l -> x <> x0 -> F x = G x /\ F x = H x) -> rprod (map F l) = (rprod (map G l) + c * rprod (map H l))%R.
  Proof.
    induction l as [|y l IH]; intros x0 c F G H N I E O; [destruct I|]. inversion N as [|? ? N1 N2]. subst.
    change (rprod (map ?f (y :: l))) with (f y * rprod (map f l))%R.
    destruct I as [->|I].
    - assert (A : forall x, In x l -> F x = G x /\ F x = H x) by (intros x Hx; apply O; [now right|intros ->; contradiction]).
      rewrite <- (prod_same l F G (fun x Hx => proj1 (A x Hx))), <- (prod_same l F H (fun x Hx => proj2 (A x Hx))), E. lra.
    - destruct (O y (or_introl eq_refl)) as [E1 E2]; [intros ->; contradiction|]. rewrite (IH x0 c F G H N2 I E (fun x Hx => O x (or_intror Hx))), <- E1, <- E2. lra.
  Qed.
  Lemma sites_nodup : forall m n, NoDup (sites m n).
  Proof.
    intros m n. unfold sites. pose proof (seq_NoDup m 0) as N. revert N. induction (seq 0 m) as [|x l IH]; intros N; cbn [flat_map]; [constructor|].
    inversion N as [|? ? N1 N2]. subst. apply nodup_app.
    - apply FinFun.Injective_map_NoDup; [|apply seq_NoDup]. intros a b H. now injection H.
    - now apply IH.
    - intros t Ht Hf. apply in_map_iff in Ht as [a [<- _]]. apply in_flat_map in Hf as [y [Hy Hm]]. apply in_map_iff in Hm as [b [Hb _]]. injection Hb as -> _. contradiction.
  Qed.
  Lemma sites_in : forall m n i j, i < m -> j < n -> In (i, j) (sites m n).
  Proof. intros m n i j Hi Hj. unfold sites. apply in_flat_map. exists i. split; [apply in_seq; lia|]. apply in_map, in_seq. lia. Qed.
  (** one site is the sum of two *)
  Lemma network_affine : forall m n dim i j c (f g e : nat -> nat -> nat -> nat -> nat -> nat -> R), i < m -> j < n ->
    (forall u v l r, f i j u v l r = g i j u v l r + c * e i j u v l r)%R ->
    (forall i' j', (i', j') <> (i, j) -> forall u v l r, f i' j' u v l r = g i' j' u v l r /\ f i' j' u v l r = e i' j' u v l r) ->
    network_sum m n dim f = (network_sum m n dim g + c * network_sum m n dim e)%R.
  Proof.
    intros m n dim i j c f g e Hi Hj H1 H2. unfold network_sum. apply Over_affine. intros a. apply (prod_affine _ (i, j)); [apply sites_nodup|now apply sites_in| |].
    - cbn [site_factor]. apply H1.
    - intros [i' j'] _ D. cbn [site_factor]. apply H2. exact D.
  Qed.
End Affine.

Section Gradient.
  Variables (m n d : nat) (dim : bond -> nat) (T : nat -> nat -> tensor unit R) (h : list nat -> list nat -> R).
  Variables (i j p u v l r : nat).
  Hypotheses (Hi : i < m) (Hj : j < n).
  Notation all := (all_spins m n d).
  Notation psi0 := (psi_of m n dim T).
  Notation psix := (psi_with m n dim T i j p u v l r).
  Definition here : R := spin_elements (T i j) p u v l r.
  Definition dpsi (t : list nat) : R := if Z.eqb (as_spins n t i j) (Z.of_nat p) then psi_around m n dim T (as_spins n t) i j u v l r else 0%R.

  Lemma psi_affine : forall x t, psix x t = (psi0 t + (x - here) * dpsi t)%R.
  Proof.
    intros x t. unfold psi_with, psi_of, psi, dpsi, psi_around, as_spins.
    destruct (Z.eqb_spec (Z.of_nat (spin_on n t i j)) (Z.of_nat p)) as [E|E].
    - apply Nat2Z.inj in E. apply (network_affine m n dim i j); [exact Hi|exact Hj| |].
      + intros u' v' l' r'. rewrite !Nat.eqb_refl, Nat2Z.id, E, Nat.eqb_refl. cbn [andb]. unfold unit_site, here.
        destruct (Nat.eqb_spec u' u) as [->|]; [|cbn; lra]. destruct (Nat.eqb_spec v' v) as [->|]; [|cbn; lra].
        destruct (Nat.eqb_spec l' l) as [->|]; [|cbn; lra]. destruct (Nat.eqb_spec r' r) as [->|]; cbn; lra.
      + intros i' j' D u' v' l' r'. rewrite !Nat2Z.id. destruct (Nat.eqb_spec i' i) as [->|]; [destruct (Nat.eqb_spec j' j) as [->|]; [now destruct D|]|]; cbn [andb]; auto.
    - rewrite Rmult_0_r, Rplus_0_r. rewrite <- (Rplus_0_r (network_sum m n dim (fun i' j' => spin_elements _ _))), <- (Rmult_0_l (network_sum m n dim (fun i' j' => spin_elements (T i' j') (spin_on n t i' j')))).
      apply (network_affine m n dim i j); [exact Hi|exact Hj| |].
      + intros u' v' l' r'. rewrite Nat2Z.id. destruct (Nat.eqb_spec (spin_on n t i j) p) as [E'|]; [rewrite E' in E; now destruct E|]. rewrite andb_false_r. cbn [andb]. lra.
      + intros i' j' D u' v' l' r'. rewrite !Nat2Z.id. destruct (Nat.eqb_spec i' i) as [->|]; [destruct (Nat.eqb_spec j' j) as [->|]; [now destruct D|]|]; cbn [andb]; auto.
  Qed.

  (** ** the derivative of the energy *)
  Notation H0 := (applied_to m n d h psi0).
  Notation SS := (squares m n d psi0).
  Notation Hd := (applied_to m n d h dpsi).
  Hypothesis Hsym : symmetric m n d h.
  Definition top : R := total all (fun t => psi0 t * H0 t)%R.
  Definition slope : R := ((2 * total all (fun t => dpsi t * H0 t) * SS - top * (2 * total all (fun t => psi0 t * dpsi t))) / (SS * SS))%R.

  Lemma applied_affine : forall x t, applied_to m n d h (psix x) t = (H0 t + (x - here) * Hd t)%R.
  Proof.
    intros x t. unfold applied_to. rewrite <- total_scale, <- total_plus. apply total_ext. intros t' _. rewrite psi_affine. lra.
  Qed.
  Lemma cross : total all (fun t => psi0 t * Hd t)%R = total all (fun t => dpsi t * H0 t)%R.
  Proof.
    transitivity (total all (fun t => total all (fun t' => h t t' * (psi0 t * dpsi t'))))%R.
    - apply total_ext. intros t _. unfold applied_to. rewrite <- total_scale. apply total_ext. intros t' _. lra.
    - rewrite total_swap. apply total_ext. intros t Ht. unfold applied_to. rewrite <- total_scale. apply total_ext. intros t' Ht'. rewrite (Hsym t' t Ht' Ht). lra.
  Qed.
  Lemma top_poly : forall x, total all (fun t => psix x t * applied_to m n d h (psix x) t)%R =
    (top + 2 * total all (fun t => dpsi t * H0 t) * (x - here) + total all (fun t => dpsi t * Hd t) * ((x - here) * (x - here)))%R.
  Proof.
    intros x. unfold top. transitivity (total all (fun t => psi0 t * H0 t + ((x - here) * (psi0 t * Hd t) + ((x - here) * (dpsi t * H0 t) + ((x - here) * (x - here)) * (dpsi t * Hd t))))%R).
    - apply total_ext. intros t _. rewrite applied_affine, psi_affine. lra.
    - rewrite !total_plus, !total_scale, cross. lra.
  Qed.
  Lemma squares_poly : forall x, squares m n d (psix x) =
    (SS + 2 * total all (fun t => psi0 t * dpsi t) * (x - here) + total all (fun t => dpsi t * dpsi t) * ((x - here) * (x - here)))%R.
  Proof.
    intros x. unfold squares at 1. transitivity (total all (fun t => psi0 t * psi0 t + ((2 * (x - here)) * (psi0 t * dpsi t) + ((x - here) * (x - here)) * (dpsi t * dpsi t)))%R).
    - apply total_ext. intros t _. rewrite psi_affine. lra.
    - rewrite !total_plus, !total_scale. unfold squares. lra.
  Qed.
  Lemma quadratic : forall a b c, derivable_pt_lim (fun x => a + b * (x - here) + c * ((x - here) * (x - here)))%R here b.
  Proof.
    intros a b c e He. destruct (Req_dec c 0) as [->|Hc].
    - exists (mkposreal 1 Rlt_0_1). intros k Hk _. replace (_ - b)%R with 0%R by (field; exact Hk). rewrite Rabs_R0. exact He.
    - assert (P : (0 < e / Rabs c)%R) by (apply Rdiv_lt_0_compat; [exact He|now apply Rabs_pos_lt]). exists (mkposreal _ P). intros k Hk Hd0. cbn in Hd0.
      replace (_ - b)%R with (c * k)%R by (field; exact Hk). rewrite Rabs_mult. apply (Rmult_lt_compat_l (Rabs c)) in Hd0; [|now apply Rabs_pos_lt].
      replace (Rabs c * (e / Rabs c))%R with e in Hd0 by (field; now apply Rabs_no_R0). exact Hd0.
  Qed.
  Lemma derivable_ext : forall f g x a, (forall y, f y = g y) -> derivable_pt_lim f x a -> derivable_pt_lim g x a.
  Proof. intros f g x a E D e He. destruct (D e He) as [del Hdel]. exists del. intros k H1 H2. rewrite <- !E. now apply Hdel. Qed.
  Lemma energy_slope : SS <> 0%R -> derivable_pt_lim (fun x => energy m n d h (psix x)) here slope.
  Proof.
    intros HS. pose proof (derivable_pt_lim_div _ _ here _ _ (quadratic top (2 * total all (fun t => dpsi t * H0 t))%R (total all (fun t => dpsi t * Hd t))%R)
      (quadratic SS (2 * total all (fun t => psi0 t * dpsi t))%R (total all (fun t => dpsi t * dpsi t))%R)) as D. cbv beta in D.
    replace (SS + 2 * total all (fun t => psi0 t * dpsi t) * (here - here) + total all (fun t => dpsi t * dpsi t) * ((here - here) * (here - here)))%R with SS in D by lra.
    replace (top + 2 * total all (fun t => dpsi t * H0 t) * (here - here) + total all (fun t => dpsi t * Hd t) * ((here - here) * (here - here)))%R with top in D by lra.
    specialize (D HS). eapply derivable_ext; [|unfold slope].
    2:{ replace ((2 * total all (fun t => dpsi t * H0 t) * SS - top * (2 * total all (fun t => psi0 t * dpsi t))) / (SS * SS))%R
          with ((2 * total all (fun t => dpsi t * H0 t) * SS - 2 * total all (fun t => psi0 t * dpsi t) * top) / Rsqr SS)%R by (unfold Rsqr; f_equal; lra). exact D. }
    intros y. unfold div_fct, energy. rewrite top_poly, squares_poly. reflexivity.
  Qed.

  (** ** the limit *)
  Variable picked : nat -> list (list nat).
  Hypothesis Hp : follows_squares m n d dim T picked.
  Hypothesis Hz : zeros_harmless m n d dim T h i j p u v l r.
  Definition O (t : list nat) : R := if Z.eqb (as_spins n t i j) (Z.of_nat p) then (psi_around m n dim T (as_spins n t) i j u v l r / psi0 t)%R else 0%R.
  Notation Eloc := (local_energy m n d dim T h).
  Definition mean (l : list (list nat)) (F : list nat -> R) : R := (fold_right Rplus 0 (map F l) / INR (length l))%R.

  Lemma O_dpsi : forall t, psi0 t <> 0%R -> (O t * psi0 t = dpsi t)%R.
  Proof. intros t Ht. unfold O, dpsi. destruct (Z.eqb _ _); [field; exact Ht|lra]. Qed.
  Lemma squares_positive : (0 < SS)%R.
  Proof.
    destruct Hp as [H _]. destruct (H 0) as [H1 H2]. destruct (picked 0) as [|t0 ts] eqn:E; [now destruct H1|]. destruct (H2 t0 (or_introl eq_refl)) as [I N].
    unfold squares. revert I. generalize all. intros ts'. induction ts' as [|x l' IH]; intros I; [destruct I|].
    change (total (x :: l') (fun t => psi0 t * psi0 t)%R) with (psi0 x * psi0 x + total l' (fun t => psi0 t * psi0 t))%R.
    assert (Q : (0 <= total l' (fun t => psi0 t * psi0 t))%R).
    { clear. induction l' as [|y l' IH]; [apply Rle_refl|]. change (total (y :: l') (fun t => psi0 t * psi0 t)%R) with (psi0 y * psi0 y + total l' (fun t => psi0 t * psi0 t))%R. pose proof (Rle_0_sqr (psi0 y)). unfold Rsqr in *. lra. }
    destruct I as [->|I]; [pose proof (Rsqr_pos_lt _ N)|pose proof (IH I); pose proof (Rle_0_sqr (psi0 x))]; unfold Rsqr in *; lra.
  Qed.
  Lemma mean_limit : forall F, Un_cv (fun k => mean (picked k) F) (total all (fun t => psi0 t * psi0 t / SS * F t)%R).
  Proof.
    intros F. destruct Hp as [H1 H2]. apply (limit_ext (fun k => total all (fun t => INR (occurrences t (picked k)) / INR (length (picked k)) * F t)%R)).
    - intros k. unfold mean. rewrite (total_picked all (picked k) F).
      + unfold Rdiv at 2. rewrite Rmult_comm, <- total_scale. apply total_ext. intros t _. unfold Rdiv. lra.
      + apply tuples_nodup, seq_NoDup.
      + intros t Ht. now apply (H1 k).
    - apply total_limit. intros t Ht. apply (CV_mult _ (fun _ => F t)); [now apply H2|apply limit_const].
  Qed.
  Theorem covariance_limit : Un_cv (fun k => 2 * mean (picked k) (fun t => O t * Eloc t) - 2 * mean (picked k) Eloc * mean (picked k) O)%R slope.
  Proof.
    pose proof squares_positive as SP.
    assert (L1 : total all (fun t => psi0 t * psi0 t / SS * (O t * Eloc t))%R = (total all (fun t => dpsi t * H0 t) / SS)%R).
    { unfold Rdiv at 2. rewrite Rmult_comm, <- total_scale. apply total_ext. intros t Ht. destruct (Req_dec (psi0 t) 0) as [Z0|NZ].
      - rewrite Z0. replace (dpsi t * H0 t)%R with 0%R; [unfold Rdiv; lra|]. destruct (Hz t Ht Z0) as [A|A]; [|rewrite A; lra].
        pose proof (A (here + 1)%R) as B. rewrite psi_affine, Z0 in B. replace (dpsi t) with 0%R; [lra|]. lra.
      - rewrite <- (O_dpsi t NZ). unfold local_energy. field. repeat split; first [exact NZ | lra]. }
    assert (L2 : total all (fun t => psi0 t * psi0 t / SS * Eloc t)%R = (top / SS)%R).
    { unfold top. unfold Rdiv at 2. rewrite Rmult_comm, <- total_scale. apply total_ext. intros t Ht. destruct (Req_dec (psi0 t) 0) as [Z0|NZ].
      - rewrite Z0. unfold Rdiv. lra.
      - unfold local_energy. field. repeat split; first [exact NZ | lra]. }
    assert (L3 : total all (fun t => psi0 t * psi0 t / SS * O t)%R = (total all (fun t => psi0 t * dpsi t) / SS)%R).
    { unfold Rdiv at 2. rewrite Rmult_comm, <- total_scale. apply total_ext. intros t Ht. destruct (Req_dec (psi0 t) 0) as [Z0|NZ].
      - rewrite Z0. unfold Rdiv. lra.
      - rewrite <- (O_dpsi t NZ). field. lra. }
    replace slope with (2 * (total all (fun t => dpsi t * H0 t) / SS) - 2 * (top / SS) * (total all (fun t => psi0 t * dpsi t) / SS))%R by (unfold slope; field; lra).
    rewrite <- L1, <- L2, <- L3. apply CV_minus.
    - apply (CV_mult (fun _ => 2%R)); [apply limit_const|apply mean_limit].
    - apply (CV_mult (fun k => 2 * mean (picked k) Eloc)%R); [apply (CV_mult (fun _ => 2%R)); [apply limit_const|apply mean_limit]|apply mean_limit].
  Qed.
End Gradient.
