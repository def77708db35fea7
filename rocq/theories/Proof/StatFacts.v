(** Facts about the statistical errors. *)
From Coq Require Import List Bool Arith ZArith Reals Lra Lia.
From Verif Require Import Base.Outcome Base.SMap Model.Symmetry Model.Schedule Model.Sampling Model.Statistics Spec.Bonds Spec.Lattice Spec.Sampling Spec.Statistics Proof.MarkovFacts.
Import ListNotations.
Open Scope nat_scope.

Notation sum := (fold_right Rplus 0%R).
Lemma sum_of_sum : forall l, sum_of l = sum l.
Proof.
  intros l. unfold sum_of. assert (G : forall l a, fold_left Rplus l a = (a + sum l)%R); [|rewrite G; lra].
  clear l. induction l as [|x l IH]; intros a; cbn; [lra|]. rewrite IH. lra.
Qed.
Lemma numbers_some : forall l, numbers (map Some l) = Some l.
Proof. induction l as [|x l IH]; cbn; [reflexivity|]. now rewrite IH. Qed.
Definition square (x : R) : R := (x * x)%R.
Lemma error_value : forall l, 2 <= length l -> error_square (map Some l) =
  Some ((sum (map square l) / INR (length l) - square (sum l / INR (length l))) / (INR (length l) - 1))%R.
Proof. intros l H. unfold error_square. rewrite numbers_some. destruct l as [|x [|y l]]; [cbn in H; lia|cbn in H; lia|]. rewrite !sum_of_sum. reflexivity. Qed.

(** ** the sum of squares of differences *)
Lemma sum_plus : forall (A : Type) (l : list A) f g, sum (map (fun a => f a + g a)%R l) = (sum (map f l) + sum (map g l))%R.
Proof. intros A l f g. induction l as [|x l IH]; cbn; [lra|]. rewrite IH. lra. Qed.
Lemma sum_scale : forall (A : Type) (l : list A) c f, sum (map (fun a => c * f a)%R l) = (c * sum (map f l))%R.
Proof. intros A l c f. induction l as [|x l IH]; cbn; [lra|]. rewrite IH. lra. Qed.
Lemma sum_const : forall (A : Type) (l : list A) c, sum (map (fun _ => c) l) = (INR (length l) * c)%R.
Proof. intros A l c. induction l as [|x l IH]; [cbn; lra|]. cbn [map fold_right length]. rewrite IH, S_INR. lra. Qed.
Lemma sum_ext : forall (A : Type) (l : list A) f g, (forall a, In a l -> f a = g a) -> sum (map f l) = sum (map g l).
Proof. intros A l f g H. f_equal. now apply map_ext_in. Qed.
Definition spread (l : list R) : R := sum (map (fun x => sum (map (fun y => square (x - y)) l)) l).
Lemma spread_value : forall l, spread l = (2 * INR (length l) * sum (map square l) - 2 * square (sum l))%R.
Proof.
  intros l. unfold spread. transitivity (sum (map (fun x => INR (length l) * square x + ((-2 * sum l) * x + sum (map square l)))%R l)).
  - apply sum_ext. intros x _. transitivity (sum (map (fun y => square x + ((-2 * x) * y + square y))%R l)); [apply sum_ext; intros y _; unfold square; lra|].
    rewrite !sum_plus, sum_const, sum_scale, map_id. lra.
  - rewrite !sum_plus, !sum_scale, sum_const, map_id. unfold square. lra.
Qed.
Lemma sum_nonneg : forall (A : Type) (l : list A) f, (forall a, In a l -> 0 <= f a)%R -> (0 <= sum (map f l))%R.
Proof. intros A l f H. induction l as [|x l IH]; cbn; [lra|]. pose proof (H x (or_introl eq_refl)). pose proof (IH (fun a Ha => H a (or_intror Ha))). lra. Qed.
Lemma sum_nonneg_zero : forall (A : Type) (l : list A) f, (forall a, In a l -> 0 <= f a)%R -> sum (map f l) = 0%R -> forall a, In a l -> f a = 0%R.
Proof.
  intros A l f H Z0 a Ha. induction l as [|x l IH]; [destruct Ha|]. cbn in Z0. pose proof (H x (or_introl eq_refl)) as P. pose proof (sum_nonneg A l f (fun b Hb => H b (or_intror Hb))) as Q.
  destruct Ha as [->|Ha]; [lra|]. apply IH; [intros b Hb; apply H; now right|lra|exact Ha].
Qed.
Lemma square_nonneg : forall x, (0 <= square x)%R.
Proof. intros x. unfold square. exact (Rle_0_sqr x). Qed.
Lemma spread_zero : forall l, spread l = 0%R <-> forall x y, In x l -> In y l -> x = y.
Proof.
  intros l. unfold spread. split.
  - intros H x y Hx Hy. pose proof (sum_nonneg_zero _ _ _ (fun a _ => sum_nonneg _ l (fun y => square (a - y)) (fun b _ => square_nonneg (a - b))) H x Hx) as P.
    pose proof (sum_nonneg_zero _ _ _ (fun b _ => square_nonneg (x - b)) P y Hy) as Q. unfold square in Q. apply Rmult_integral in Q. lra.
  - intros H. rewrite (sum_ext _ l _ (fun _ => 0%R)); [rewrite sum_const; lra|]. intros x Hx. rewrite (sum_ext _ l _ (fun _ => 0%R)); [rewrite sum_const; lra|].
    intros y Hy. rewrite (H x y Hx Hy). unfold square. lra.
Qed.
Lemma count_bigger : forall n, 2 <= n -> (0 < INR n /\ 0 < INR n - 1)%R.
Proof. intros n H. apply le_INR in H. cbn in H. lra. Qed.
Theorem error_nonnegative : forall l : list R, 2 <= length l ->
  exists e, error_square (map Some l) = Some e /\ (0 <= e)%R /\ (e = 0%R <-> forall x y, In x l -> In y l -> x = y).
Proof.
  intros l H. rewrite (error_value l H). eexists. split; [reflexivity|]. destruct (count_bigger _ H) as [P Q].
  assert (X : ((sum (map square l) / INR (length l) - square (sum l / INR (length l))) / (INR (length l) - 1) = spread l * / (2 * INR (length l) * INR (length l) * (INR (length l) - 1)))%R).
  { rewrite spread_value. unfold square. field. lra. }
  assert (Y : (0 < / (2 * INR (length l) * INR (length l) * (INR (length l) - 1)))%R) by (apply Rinv_0_lt_compat; repeat apply Rmult_lt_0_compat; lra).
  rewrite X. split.
  - apply Rmult_le_pos; [|lra]. apply sum_nonneg. intros a _. apply sum_nonneg. intros b _. apply square_nonneg.
  - rewrite <- spread_zero. split; intros Z0; [|rewrite Z0; lra]. apply Rmult_integral in Z0. lra.
Qed.

(** ** independent samples *)
Section Independent.
  Context {A : Type}.
  Variables (outcomes : list A) (w : A -> R).
  Hypothesis HD : distribution outcomes w.
  Notation average := (average outcomes w).
  Notation draws := (draws outcomes w).
  Lemma average_ext : forall f g, (forall a, f a = g a) -> average f = average g.
  Proof. intros f g H. unfold average. apply sum_ext. intros a _. now rewrite H. Qed.
  Lemma average_plus : forall f g, average (fun a => f a + g a)%R = (average f + average g)%R.
  Proof. intros f g. unfold average. rewrite <- sum_plus. apply sum_ext. intros a _. lra. Qed.
  Lemma average_scale : forall c f, average (fun a => c * f a)%R = (c * average f)%R.
  Proof. intros c f. unfold average. rewrite <- sum_scale. apply sum_ext. intros a _. lra. Qed.
  Lemma average_const : forall c, average (fun _ => c) = c.
  Proof. intros c. transitivity (average (fun _ => c * 1)%R); [apply average_ext; intros; lra|]. rewrite average_scale. unfold distribution in HD. rewrite HD. lra. Qed.
  Lemma draws_ext : forall n f g, (forall l, length l = n -> f l = g l) -> draws n f = draws n g.
  Proof. induction n as [|n IH]; intros f g H; cbn; [now apply H|]. apply average_ext. intros a. apply IH. intros l Hl. apply H. cbn. now rewrite Hl. Qed.
  Lemma draws_plus : forall n f g, draws n (fun l => f l + g l)%R = (draws n f + draws n g)%R.
  Proof. induction n as [|n IH]; intros f g; cbn; [reflexivity|]. rewrite <- average_plus. apply average_ext. intros a. apply IH. Qed.
  Lemma draws_scale : forall n c f, draws n (fun l => c * f l)%R = (c * draws n f)%R.
  Proof. induction n as [|n IH]; intros c f; cbn; [reflexivity|]. rewrite <- average_scale. apply average_ext. intros a. apply IH. Qed.
  Lemma draws_const : forall n c, draws n (fun _ => c) = c.
  Proof. induction n as [|n IH]; intros c; cbn; [reflexivity|]. rewrite (average_ext _ (fun _ => c)); [apply average_const|]. intros a. apply IH. Qed.
  Lemma draws_sum : forall n g, draws n (fun l => sum (map g l)) = (INR n * average g)%R.
  Proof.
    induction n as [|n IH]; intros g; [cbn; lra|]. cbn [Statistics.draws map fold_right]. rewrite (average_ext _ (fun a => g a + INR n * average g)%R).
    - rewrite average_plus, average_const, S_INR. lra.
    - intros a. rewrite draws_plus, draws_const, IH. reflexivity.
  Qed.
  Lemma draws_square : forall n v, draws n (fun l => square (sum (map v l))) = (INR n * average (fun a => square (v a)) + INR n * (INR n - 1) * square (average v))%R.
  Proof.
    induction n as [|n IH]; intros v; [cbn; unfold square; lra|]. cbn [Statistics.draws map fold_right].
    rewrite (average_ext _ (fun a => square (v a) + ((2 * (INR n * average v)) * v a + (INR n * average (fun a => square (v a)) + INR n * (INR n - 1) * square (average v))))%R).
    - rewrite !average_plus, !average_const, average_scale, S_INR. change (fun a : A => v a) with v. unfold square. lra.
    - intros a. rewrite (draws_ext n _ (fun l => square (v a) + ((2 * v a) * sum (map v l) + square (sum (map v l))))%R) by (intros l _; unfold square; lra).
      rewrite !draws_plus, draws_const, draws_scale, draws_sum, IH. lra.
  Qed.
  (** variance of v over n *)
  Definition scatter (v : A -> R) : R := (average (fun a => square (v a)) - square (average v))%R.
  Lemma error_draws : forall n v, 2 <= n -> draws n (fun l => value_of (error_square (map (fun a => Some (v a)) l))) = (scatter v / INR n)%R.
  Proof.
    intros n v H. destruct (count_bigger n H) as [P Q].
    rewrite (draws_ext n _ (fun l => / (INR n * (INR n - 1)) * sum (map (fun a => square (v a)) l) + (- / (INR n * INR n * (INR n - 1))) * square (sum (map v l)))%R).
    - rewrite draws_plus, !draws_scale, draws_sum, draws_square. unfold scatter, square. field. lra.
    - intros l Hl. rewrite <- (map_map v Some), error_value by (rewrite map_length; lia). cbn [value_of]. rewrite map_map, map_length, Hl. unfold square. field. lra.
  Qed.
  Lemma mean_draws : forall n v, 0 < n -> draws n (fun l => square (arithmetic_mean (map v l) - average v)) = (scatter v / INR n)%R.
  Proof.
    intros n v H. assert (P : (0 < INR n)%R) by (now apply lt_0_INR).
    rewrite (draws_ext n _ (fun l => / (INR n * INR n) * square (sum (map v l)) + ((-2 * average v / INR n) * sum (map v l) + square (average v)))%R).
    - rewrite !draws_plus, !draws_scale, draws_const, draws_sum, draws_square. unfold scatter, square. field. lra.
    - intros l Hl. unfold arithmetic_mean. rewrite map_length, Hl. unfold square. field. lra.
  Qed.
  Theorem error_unbiased : forall n v, 2 <= n ->
    draws n (fun l => value_of (error_square (map (fun a => Some (v a)) l))) = draws n (fun l => square (arithmetic_mean (map v l) - average v)).
  Proof. intros n v H. rewrite error_draws, mean_draws by lia. reflexivity. Qed.

  (** several terms *)
  Lemma energy_error_some : forall (ls : list (list R)) s, (forall l, In l ls -> 2 <= length l) ->
    fold_left (fun sum values => match sum, error_square values with Some s, Some e => Some (s + e)%R | _, _ => None end) (map (map Some) ls) (Some s) =
    Some (s + sum (map (fun l => value_of (error_square (map Some l))) ls))%R.
  Proof.
    induction ls as [|l ls IH]; intros s H; cbn [map fold_left fold_right]; [f_equal; lra|].
    rewrite (error_value l (H l (or_introl eq_refl))). rewrite IH by (intros k Hk; apply H; now right). f_equal. cbn [value_of]. lra.
  Qed.
  Lemma draws_total : forall n (B : Type) (fs : list B) (F : B -> list A -> R), draws n (fun l => sum (map (fun b => F b l) fs)) = sum (map (fun b => draws n (F b)) fs).
  Proof. intros n B fs F. induction fs as [|b fs IH]; cbn [map fold_right]; [apply draws_const|]. rewrite draws_plus, IH. reflexivity. Qed.
  Definition added (fs : list (A -> R)) (a : A) : R := sum (map (fun f => f a) fs).
  Lemma average_added : forall fs, average (added fs) = sum (map average fs).
  Proof. induction fs as [|f fs IH]; cbn [map fold_right]; [exact (average_const 0)|]. rewrite <- IH, <- average_plus. reflexivity. Qed.
  Lemma scatter_added : forall fs, ForallOrdPairs (uncorrelated outcomes w) fs -> scatter (added fs) = sum (map scatter fs).
  Proof.
    induction fs as [|f fs IH]; intros H.
    - cbn [map fold_right]. unfold scatter, added. cbn [map fold_right]. rewrite !average_const. unfold square. lra.
    - inversion H as [|? ? H1 H2]. subst. cbn [map fold_right]. rewrite <- (IH H2). unfold scatter. rewrite !average_added. cbn [map fold_right]. rewrite <- average_added.
      assert (X : average (fun a => f a * added fs a)%R = (average f * average (added fs))%R).
      { rewrite average_added. clear -H1 HD. induction fs as [|g fs IH]; cbn [map fold_right].
        - unfold added. cbn [map fold_right]. rewrite (average_ext _ (fun _ => 0%R)) by (intros; lra). rewrite average_const. lra.
        - inversion H1 as [|? ? U1 U2]. subst. rewrite (average_ext _ (fun a => f a * g a + f a * added fs a)%R) by (intros a; unfold added; cbn [map fold_right]; lra).
          rewrite average_plus, U1, (IH U2). lra. }
      rewrite (average_ext (fun a => square (added (f :: fs) a)) (fun a => square (f a) + (2 * (f a * added fs a) + square (added fs a)))%R) by (intros a; unfold added, square; cbn [map fold_right]; lra).
      rewrite !average_plus, average_scale, X. unfold square. lra.
  Qed.
  Theorem energy_error : forall n (fs : list (A -> R)), 2 <= n -> ForallOrdPairs (uncorrelated outcomes w) fs ->
    draws n (fun l => value_of (energy_error_square (map (fun f => map (fun a => Some (f a)) l) fs))) = draws n (fun l => square (arithmetic_mean (map (added fs) l) - average (added fs))).
  Proof.
    intros n fs H U. rewrite mean_draws by lia. rewrite (scatter_added fs U).
    rewrite (draws_ext n _ (fun l => sum (map (fun f => value_of (error_square (map (fun a => Some (f a)) l))) fs))).
    - rewrite draws_total. rewrite (sum_ext _ fs _ (fun f => / INR n * scatter f)%R); [rewrite sum_scale; unfold Rdiv; lra|]. intros f _. rewrite (error_draws n f H). unfold Rdiv. lra.
    - intros l Hl. unfold energy_error_square. rewrite <- (map_ext (fun f => map Some (map f l)) (fun f => map (fun a => Some (f a)) l)) by (intros f; apply map_map).
      rewrite <- (map_map (fun f => map f l) (map Some)). rewrite energy_error_some.
      + cbn [value_of]. rewrite map_map. rewrite (sum_ext _ fs _ (fun f => value_of (error_square (map (fun a => Some (f a)) l)))); [lra|]. intros f _. now rewrite map_map.
      + intros k Hk. apply in_map_iff in Hk as [f [<- _]]. rewrite map_length. lia.
  Qed.
End Independent.
