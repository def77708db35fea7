From Coq Require Import List Bool Arith Lia Sorted.
From Verif Require Import Base.Outcome Base.SMap Model.Symmetry Model.SvdCut Spec.Truncate Proof.SymmetryFacts.
Import ListNotations.

Section CutFacts.
  Context {S V : Type} {SS : Sym S} {SL : SymLaws S} (vzero : V) (greater : V -> V -> bool).
  Hypothesis SO : strict_order greater.
  Implicit Types (sing : list (S * list V)) (r : S -> nat).

  Lemma not_greater_trans : forall x y z, greater x y = false -> greater y z = false -> greater x z = false.
  Proof.
    intros x y z H1 H2. destruct (greater x z) eqn:E; [|reflexivity]. destruct (so_total _ SO y z) as [->|[H|H]]; [congruence|congruence|].
    pose proof (so_trans _ SO _ _ _ E H). congruence.
  Qed.
  Lemma greater_antisym : forall x y, greater x y = true -> greater y x = false.
  Proof. intros x y H. destruct (greater y x) eqn:E; [|reflexivity]. pose proof (so_trans _ SO _ _ _ H E) as T. rewrite (so_irrefl _ SO) in T. discriminate. Qed.

  Definition heads sing r (t : S) (y : V) : Prop := exists m, In (t, m) sing /\ nth_error m (r t) = Some y.

  Lemma find_maximum_spec : forall sing u r, (forall s l, In (s, l) sing -> mfind s u = Some (r s) /\ r s <= length l) ->
    exists p m, find_maximum vzero greater sing u = Ok (p, m) /\
      ((heads sing r p m /\ greater m vzero = true /\ forall t y, heads sing r t y -> greater y m = false) \/
       ((p, m) = (szero, vzero) /\ forall t y, heads sing r t y -> greater y vzero = false)).
  Proof.
    intros sing u r H. unfold find_maximum.
    set (P := fun (seen : list (S * list V)) (best : S * V) =>
      (heads seen r (fst best) (snd best) /\ greater (snd best) vzero = true /\ forall t y, heads seen r t y -> greater y (snd best) = false) \/
      (best = (szero, vzero) /\ forall t y, heads seen r t y -> greater y vzero = false)).
    match goal with |- context [foldM ?f sing ?b] => destruct (foldM_inv _ _ f P sing [] b) as [[p m] [E Q]] end.
    - right. split; [reflexivity|]. intros t y [k [[] _]].
    - intros done [s l] rest [p m] Hd Hp. cbn [fst snd] in *. cbn [app] in Hd.
      assert (Hin : In (s, l) sing) by (rewrite Hd; apply in_or_app; right; now left). destruct (H s l Hin) as [H1 H2]. rewrite H1. cbn [at_or_throw bind].
      assert (Mono : forall t y, heads done r t y -> heads (done ++ [(s, l)]) r t y) by (intros t y [k [K1 K2]]; exists k; split; [apply in_or_app; now left|exact K2]).
      assert (Split : forall t y, heads (done ++ [(s, l)]) r t y -> heads done r t y \/ (t = s /\ nth_error l (r s) = Some y)).
      { intros t y [k [K1 K2]]. apply in_app_or in K1 as [K1|[K1|[]]]; [left; exists k; auto|]. injection K1 as <- <-. now right. }
      destruct (Nat.eqb_spec (r s) (length l)) as [El|El].
      + exists (p, m). split; [reflexivity|]. assert (Hn : nth_error l (r s) = None) by (apply nth_error_None; lia).
        destruct Hp as [[P1 [P2 P3]]|[P1 P2]]; [left|right].
        * split; [now apply Mono|]. split; [exact P2|]. intros t y Hh. apply Split in Hh as [Hh|[-> Hh]]; [now apply (P3 t)|congruence].
        * split; [exact P1|]. intros t y Hh. apply Split in Hh as [Hh|[-> Hh]]; [now apply (P2 t)|congruence].
      + destruct (nth_error l (r s)) as [v|] eqn:Ev; [|apply nth_error_None in Ev; lia]. cbn [get_or_ub bind].
        assert (Hs : heads (done ++ [(s, l)]) r s v) by (exists l; split; [apply in_or_app; right; now left|exact Ev]).
        destruct (greater v m) eqn:Eg.
        * exists (s, v). split; [reflexivity|]. left. cbn [fst snd]. split; [exact Hs|]. destruct Hp as [[P1 [P2 P3]]|[P1 P2]].
          -- split; [eapply so_trans; eauto|]. intros t y Hh. apply Split in Hh as [Hh|[-> Hh]].
             ++ apply not_greater_trans with m; [now apply (P3 t)|now apply greater_antisym].
             ++ injection Hh as <-. apply SO.
          -- injection P1 as -> ->. split; [exact Eg|]. intros t y Hh. apply Split in Hh as [Hh|[-> Hh]].
             ++ apply not_greater_trans with vzero; [now apply (P2 t)|now apply greater_antisym].
             ++ injection Hh as <-. apply SO.
        * exists (p, m). split; [reflexivity|]. destruct Hp as [[P1 [P2 P3]]|[P1 P2]]; [left|right]; cbn [fst snd].
          -- split; [now apply Mono|]. split; [exact P2|]. intros t y Hh. apply Split in Hh as [Hh|[-> Hh]]; [now apply (P3 t)|]. injection Hh as <-. exact Eg.
          -- split; [exact P1|]. injection P1 as -> ->. intros t y Hh. apply Split in Hh as [Hh|[-> Hh]]; [now apply (P2 t)|]. injection Hh as <-. exact Eg.
    - exists p, m. split; [exact E|]. exact Q.
  Qed.

  Lemma positives_bound : forall l k, descending greater l -> (forall y, nth_error l k = Some y -> greater y vzero = false) -> positives vzero greater l <= k.
  Proof.
    intros l k D H. unfold positives. rewrite <- (firstn_skipn k l), filter_app, app_length.
    assert (E : filter (fun x => greater x vzero) (skipn k l) = []).
    { destruct (filter (fun x => greater x vzero) (skipn k l)) as [|y f] eqn:E; [reflexivity|]. assert (Hy : In y (filter (fun x => greater x vzero) (skipn k l))) by (rewrite E; now left).
      apply filter_In in Hy as [Hy Gy]. apply In_nth_error in Hy as [j Hj]. rewrite <- (firstn_skipn k l) in H.
      destruct (nth_error l k) as [x|] eqn:Ex.
      - rewrite firstn_skipn in H. specialize (H x Ex). assert (Hj' : nth_error l (k + j) = Some y) by (rewrite <- Hj; clear; revert l; induction k as [|k IH]; intros [|a l]; cbn; auto; destruct j; reflexivity).
        pose proof (D k (k + j) x y ltac:(lia) Ex Hj') as Dy. pose proof (not_greater_trans _ _ _ Dy H). congruence.
      - apply nth_error_None in Ex. rewrite skipn_all2 in Hj by exact Ex. destruct j; discriminate. }
    rewrite E. cbn [length]. pose proof (firstn_le_length k l). 
    assert (F : length (filter (fun x => greater x vzero) (firstn k l)) <= length (firstn k l)) by (clear; induction (firstn k l) as [|a f IH]; cbn; [lia|destruct (greater a vzero); cbn; lia]). lia.
  Qed.

  Definition bump (r : S -> nat) (p : S) : S -> nat := fun s => if eqb s p then r s + 1 else r s.
  Lemma sum_bump : forall sing r p l, NoDup (map fst sing) -> In (p, l) sing ->
    sum_nat (map (fun sv => bump r p (fst sv)) sing) = sum_nat (map (fun sv => r (fst sv)) sing) + 1.
  Proof.
    induction sing as [|[s k] sing IH]; intros r p l Hd Hin; [destruct Hin|]. cbn [map fst] in Hd. inversion Hd as [|? ? Hn Hd']; subst.
    cbn [map fst sum_nat fold_right]. fold (sum_nat (map (fun sv => bump r p (fst sv)) sing)) (sum_nat (map (fun sv : S * list V => r (fst sv)) sing)). destruct Hin as [Hin|Hin].
    - injection Hin as -> ->. assert (Eb : bump r p p = r p + 1) by (unfold bump; now rewrite eqb_refl). rewrite Eb.
      assert (E : map (fun sv => bump r p (fst sv)) sing = map (fun sv => r (fst sv)) sing).
      { apply map_ext_in. intros [s k'] Hs. cbn [fst]. unfold bump. destruct (eqb s p) eqn:E; [|reflexivity]. apply eqb_eq in E. subst. exfalso. apply Hn. now apply (in_map fst) in Hs. }
      rewrite E. lia.
    - rewrite (IH r p l Hd' Hin). assert (E : bump r p s = r s). { unfold bump. destruct (eqb s p) eqn:E; [|reflexivity]. apply eqb_eq in E. subst. exfalso. apply Hn. now apply (in_map fst) in Hin. } lia.
  Qed.

  Definition clean sing := NoDup (map fst sing) /\ forall s l, In (s, l) sing -> descending greater l.

  Lemma same_key : forall sing s l l', NoDup (map fst sing) -> In (s, l) sing -> In (s, l') sing -> l = l'.
  Proof. intros sing s l l' Hd H1 H2. pose proof (In_mfind_nodup sing s l Hd H1). pose proof (In_mfind_nodup sing s l' Hd H2). congruence. Qed.

  Lemma cut_loop_spec : forall n sing u v r, clean sing ->
    (forall s l, In (s, l) sing -> mfind s u = Some (r s) /\ mfind (sneg s) v = Some (r s)) ->
    (forall s l, In (s, l) sing -> r s <= length l) ->
    (forall s l t m i j x y, In (s, l) sing -> In (t, m) sing -> i < r s -> r t <= j -> nth_error l i = Some x -> nth_error m j = Some y -> greater y x = false) ->
    (forall s l i x, In (s, l) sing -> i < r s -> nth_error l i = Some x -> greater x vzero = true) ->
    sum_nat (map (fun sv => r (fst sv)) sing) + n <= sum_nat (map (fun sv => positives vzero greater (snd sv)) sing) ->
    msorted u -> msorted v ->
    exists u' v' r', cut_loop vzero greater sing n u v = Ok (u', v') /\ best_selection greater sing (sum_nat (map (fun sv => r (fst sv)) sing) + n) r' /\
      (forall s l, In (s, l) sing -> mfind s u' = Some (r' s) /\ mfind (sneg s) v' = Some (r' s)) /\
      msorted u' /\ msorted v' /\ (forall k, In k (map fst u') <-> In k (map fst u)) /\ (forall k, In k (map fst v') <-> In k (map fst v)).
  Proof.
    induction n as [|n IH]; intros sing u v r [Hd Hdesc] Huv Hlen Hbest Hpos Hsum Su Sv.
    - exists u, v, r. split; [reflexivity|]. split; [|auto 6 using iff_refl]. rewrite Nat.add_0_r. split; [reflexivity|]. split; assumption.
    - destruct (find_maximum_spec sing u r) as [p [m [EM [[[l [Hl Hm]] [Gm Hmax]]|[_ Hmax]]]]].
      { intros s l Hs. split; [now apply (Huv s l)|now apply (Hlen s l)]. }
      + cbn [cut_loop]. rewrite EM. cbn [bind fst]. destruct (Huv p l Hl) as [U1 V1]. unfold increment. rewrite U1, V1. cbn [at_or_throw bind].
        assert (Lp : r p < length l) by (apply nth_error_Some; congruence).
        destruct (IH sing (mset p (r p + 1) u) (mset (sneg p) (r p + 1) v) (bump r p)) as [u' [v' [r' [E [B [F [S1 [S2 [K1 K2]]]]]]]]].
        * split; assumption.
        * intros s k Hs. unfold bump. destruct (eqb s p) eqn:Es.
          -- apply eqb_eq in Es. subst s. now rewrite !mfind_mset_same.
          -- apply eqb_false in Es. rewrite !mfind_mset_other; [now apply (Huv s k)| |exact Es]. intro Hn. apply Es. now apply sneg_inj.
        * intros s k Hs. unfold bump. destruct (eqb s p) eqn:Es; [|now apply Hlen]. apply eqb_eq in Es. subst s. rewrite (same_key sing p k l Hd Hs Hl). lia.
        * intros s k t q i j x y Hs Ht Hi Hj Hx Hy.
          assert (Hj' : r t <= j) by (unfold bump in Hj; destruct (eqb t p); lia).
          unfold bump in Hi. destruct (eqb s p) eqn:Es; [|now apply (Hbest s k t q i j x y)]. apply eqb_eq in Es. subst s.
          rewrite (same_key sing p k l Hd Hs Hl) in Hx. destruct (Nat.eq_dec i (r p)) as [->|Ni]; [|apply (Hbest p l t q i j x y); auto; lia].
          rewrite Hm in Hx. injection Hx as <-. destruct (nth_error q (r t)) as [z|] eqn:Ez.
          -- apply not_greater_trans with z; [exact (Hdesc t q Ht (r t) j z y Hj' Ez Hy)|]. apply (Hmax t z). exists q. auto.
          -- apply nth_error_None in Ez. assert (j < length q) by (apply nth_error_Some; congruence). lia.
        * intros s k i x Hs Hi Hx. unfold bump in Hi. destruct (eqb s p) eqn:Es; [|now apply (Hpos s k i x)]. apply eqb_eq in Es. subst s.
          rewrite (same_key sing p k l Hd Hs Hl) in Hx. destruct (Nat.eq_dec i (r p)) as [->|Ni]; [congruence|]. apply (Hpos p l i x); auto. lia.
        * rewrite (sum_bump sing r p l Hd Hl). lia.
        * now apply mset_sorted.
        * now apply mset_sorted.
        * exists u', v', r'. split; [exact E|]. rewrite (sum_bump sing r p l Hd Hl) in B. split; [replace (sum_nat (map (fun sv : S * list V => r (fst sv)) sing) + Datatypes.S n) with (sum_nat (map (fun sv : S * list V => r (fst sv)) sing) + 1 + n) by lia; exact B|].
          split; [exact F|]. split; [exact S1|]. split; [exact S2|]. split.
          -- intro k. rewrite K1, mset_keys. split; [intros [->|H]; [now apply mfind_In_key in U1|exact H]|auto].
          -- intro k. rewrite K2, mset_keys. split; [intros [->|H]; [now apply mfind_In_key in V1|exact H]|auto].
      + exfalso. assert (LE : sum_nat (map (fun sv => positives vzero greater (snd sv)) sing) <= sum_nat (map (fun sv => r (fst sv)) sing)); [|lia].
        assert (HH : forall s l, In (s, l) sing -> positives vzero greater l <= r s).
        { intros s l Hs. apply positives_bound; [now apply (Hdesc s)|]. intros y Hy. apply (Hmax s y). exists l. auto. }
        clear - HH. induction sing as [|[s l] sing IH]; [cbn; lia|]. cbn [map sum_nat fold_right fst snd]. pose proof (HH s l (or_introl eq_refl)).
        assert (forall s l, In (s, l) sing -> positives vzero greater l <= r s) by (intros; apply HH; now right). specialize (IH H0). unfold sum_nat in IH. lia.
  Qed.

  Lemma start_map : forall sing (f : S -> S) m, msorted m -> let m' := fold_left (fun m (sv : S * list V) => mset (f (fst sv)) 0 m) sing m in
    msorted m' /\ (forall k, In k (map fst m') <-> In k (map fst m) \/ In k (map (fun sv => f (fst sv)) sing)) /\
    (forall k, In k (map (fun sv => f (fst sv)) sing) \/ mfind k m = Some 0 -> mfind k m' = Some 0).
  Proof.
    intros sing f. induction sing as [|[s l] sing IH]; intros m Hm; cbn [fold_left fst map].
    - split; [exact Hm|]. split; [intro k; cbn [In]; tauto|]. intros k [[]|H]. exact H.
    - destruct (IH (mset (f s) 0 m) (mset_sorted _ _ _ Hm)) as [I1 [I2 I3]]. split; [exact I1|]. split.
      + intro k. rewrite I2, mset_keys. cbn [In]. intuition.
      + intros k Hk. destruct (ord_dec k (f s)) as [->|Nk]; [apply I3; right; apply mfind_mset_same|]. apply I3. destruct Hk as [[Hk|Hk]|Hk]; [congruence|now left|right; now rewrite mfind_mset_other].
  Qed.

  Lemma merase_find : forall A (m : list (S * A)) k k', msorted m -> mfind k' (merase k m) = if eqb k' k then None else mfind k' m.
  Proof.
    intros A m k k' Hm. destruct (eqb k' k) eqn:E.
    - apply eqb_eq in E. subst. apply mfind_None. intro H. apply merase_keys in H as [H _]; [congruence|exact Hm].
    - apply eqb_false in E. clear Hm. induction m as [|[k0 v0] m IH]; [reflexivity|]. cbn [merase mfind]. destruct (eqb k k0) eqn:E0.
      + apply eqb_eq in E0. subst k0. destruct (eqb k' k) eqn:E1; [apply eqb_eq in E1; congruence|reflexivity].
      + cbn [mfind]. now rewrite IH.
  Qed.

  Lemma trim_spec : forall u sing, NoDup (map fst u) -> (forall k, In k (map fst u) -> In k (map fst sing)) -> msorted sing ->
    exists sing', trim vzero u sing = Ok sing' /\ msorted sing' /\
      forall k, mfind k sing' = match mfind k u with Some n => if Nat.eqb n 0 then None else option_map (resize vzero n) (mfind k sing) | None => mfind k sing end.
  Proof.
    unfold trim. induction u as [|[k n] u IH]; intros sing Hd Hk Hs.
    - exists sing. split; [reflexivity|]. split; [exact Hs|reflexivity].
    - cbn [map fst] in Hd. inversion Hd as [|? ? Hn Hd']; subst. cbn [foldM fst snd]. destruct (Nat.eqb_spec n 0) as [->|Nn].
      + cbn [bind]. destruct (IH (merase k sing) Hd') as [sing' [E [Hs' F]]].
        { intros k' Hk'. apply merase_keys; [exact Hs|]. split; [|apply Hk; now right]. intros ->. contradiction. }
        { now apply merase_sorted. }
        exists sing'. split; [exact E|]. split; [exact Hs'|]. intro k'. rewrite F. cbn [mfind]. rewrite merase_find by exact Hs.
        destruct (eqb k' k) eqn:Ek; [|reflexivity]. apply eqb_eq in Ek. subst k'. destruct (mfind k u) eqn:Eu; [apply mfind_In_key in Eu; contradiction|reflexivity].
      + destruct (mfind_Some_In sing k (Hk k (or_introl eq_refl))) as [l El]. rewrite El. cbn [at_or_throw bind].
        destruct (IH (mset k (resize vzero n l) sing) Hd') as [sing' [E [Hs' F]]].
        { intros k' Hk'. apply mset_keys. right. apply Hk. now right. }
        { now apply mset_sorted. }
        exists sing'. split; [exact E|]. split; [exact Hs'|]. intro k'. rewrite F. cbn [mfind]. destruct (eqb k' k) eqn:Ek.
        * apply eqb_eq in Ek. subst k'. destruct (mfind k u) eqn:Eu; [apply mfind_In_key in Eu; contradiction|]. rewrite mfind_mset_same, El. destruct (Nat.eqb_spec n 0); [contradiction|reflexivity].
        * apply eqb_false in Ek. rewrite mfind_mset_other by exact Ek. reflexivity.
  Qed.

  Lemma prefixes_sorted : forall r sing, msorted sing -> msorted (prefixes r sing).
  Proof.
    intros r sing H. unfold prefixes. apply msorted_filter. unfold msorted in *. rewrite map_map. cbn [fst]. exact H.
  Qed.
  Lemma prefixes_find : forall r sing k, msorted sing -> mfind k (prefixes r sing) =
    match mfind k sing with Some l => if Nat.eqb (length (firstn (r k) l)) 0 then None else Some (firstn (r k) l) | None => None end.
  Proof.
    intros r sing k. induction sing as [|[s l] sing IH]; intro H; [reflexivity|]. apply msorted_cons_inv in H as [H1 H2]. specialize (IH H1).
    unfold prefixes in *. cbn [map filter fst snd mfind]. destruct (eqb k s) eqn:E.
    - apply eqb_eq in E. subst s. destruct (Nat.eqb (length (firstn (r k) l)) 0) eqn:El; cbn [negb mfind].
      + rewrite IH. destruct (mfind k sing) eqn:Ek; [|reflexivity]. apply mfind_In_key in Ek. apply H2 in Ek. now apply lt_irrefl in Ek.
      + now rewrite eqb_refl.
    - destruct (Nat.eqb (length (firstn (r s) l)) 0); cbn [negb mfind]; [exact IH|]. now rewrite E.
  Qed.

  Lemma total_sum : forall sing, total_dimension sing = sum_nat (map (fun sv => length (snd sv)) sing).
  Proof.
    intro sing. unfold total_dimension. assert (G : forall k, fold_left (fun n (sv : S * list V) => n + length (snd sv)) sing k = k + sum_nat (map (fun sv => length (snd sv)) sing)).
    { induction sing as [|[s l] sing IH]; intro k; cbn [fold_left map sum_nat fold_right snd]; [lia|]. rewrite IH. unfold sum_nat. lia. }
    apply G.
  Qed.

  Lemma svd_cut_general : forall sing n, msorted sing -> (forall s l, In (s, l) sing -> descending greater l) ->
    n < total_dimension sing -> n <= sum_nat (map (fun sv => positives vzero greater (snd sv)) sing) ->
    exists u v r, svd_cut vzero greater sing (Some n) = Ok (u, v, prefixes r sing) /\ best_selection greater sing n r /\
      u = map (fun sv => (fst sv, r (fst sv))) sing /\ v = of_list (map (fun sv => (sneg (fst sv), r (fst sv))) sing).
  Proof.
    intros sing n Hs Hd Ht Hp. unfold svd_cut. rewrite (proj2 (Nat.ltb_lt _ _) Ht).
    destruct (start_map sing (fun s => s) [] msorted_nil) as [U1 [U2 U3]]. destruct (start_map sing sneg [] msorted_nil) as [V1 [V2 V3]].
    cbv zeta in U1, U2, U3, V1, V2, V3.
    set (u0 := fold_left (fun m (sv : S * list V) => mset (fst sv) 0 m) sing []) in *. set (v0 := fold_left (fun m (sv : S * list V) => mset (sneg (fst sv)) 0 m) sing []) in *.
    pose proof (msorted_nodup _ Hs) as ND.
    assert (Z : sum_nat (map (fun sv : S * list V => (fun _ : S => 0) (fst sv)) sing) = 0) by (clear; induction sing as [|a l IH]; [reflexivity|exact IH]).
    destruct (cut_loop_spec n sing u0 v0 (fun _ => 0)) as [u [v [r [E [B [F [S1 [S2 [K1 K2]]]]]]]]].
    - split; assumption.
    - intros s l Hin. split; [apply U3|apply V3]; left; [change s with (fst (s, l)); now apply (in_map fst) in Hin|]. change (sneg s) with ((fun sv : S * list V => sneg (fst sv)) (s, l)). now apply in_map.
    - intros. lia.
    - intros. lia.
    - intros. lia.
    - rewrite Z. exact Hp.
    - exact U1.
    - exact V1.
    - rewrite E. cbn [bind fst snd]. rewrite Z in B. cbn [plus] in B.
      assert (KU : forall k, In k (map fst u) <-> In k (map fst sing)) by (intro k; rewrite K1, U2; cbn [map In]; tauto).
      assert (Eu : u = map (fun sv => (fst sv, r (fst sv))) sing).
      { apply msorted_ext; [exact S1|unfold msorted; rewrite map_map; exact Hs|]. intro k. destruct (mfind k u) as [x|] eqn:Ek.
        - pose proof (mfind_In_key _ _ _ Ek) as Hk. apply KU in Hk. apply in_map_iff in Hk as [[k' l] [<- Hk]]. cbn [fst] in Ek |- *. destruct (F k' l Hk) as [F1 _]. rewrite Ek in F1. injection F1 as ->.
          symmetry. apply In_mfind_nodup; [rewrite map_map; exact ND|]. change (k', r k') with ((fun sv : S * list V => (fst sv, r (fst sv))) (k', l)). now apply in_map.
        - symmetry. apply mfind_None. rewrite map_map. cbn [fst]. apply mfind_None in Ek. intro Hk. apply Ek, KU. exact Hk. }
      assert (Ev : v = of_list (map (fun sv => (sneg (fst sv), r (fst sv))) sing)).
      { assert (NDn : NoDup (map (fun sv : S * list V => sneg (fst sv)) sing)).
        { rewrite <- (map_map fst sneg). apply FinFun.Injective_map_NoDup; [intros x y; apply sneg_inj|exact ND]. }
        assert (Fo : forall l m (k : S), NoDup (map fst l) -> mfind k (fold_left (fun m (kv : S * nat) => mset (fst kv) (snd kv) m) l m) = match mfind k l with Some x => Some x | None => mfind k m end).
        { clear - SL. induction l as [|[k0 x0] l IH]; intros m k Hd; [reflexivity|]. cbn [map fst] in Hd. inversion Hd as [|? ? Hn Hd']; subst. cbn [fold_left fst snd mfind]. rewrite IH by exact Hd'.
          destruct (eqb k k0) eqn:E.
          - apply eqb_eq in E. subst. destruct (mfind k0 l) eqn:El; [apply mfind_In_key in El; contradiction|]. apply mfind_mset_same.
          - apply eqb_false in E. rewrite mfind_mset_other by exact E. reflexivity. }
        apply msorted_ext; [exact S2|apply of_list_sorted|]. intro k. unfold of_list. rewrite Fo by (rewrite map_map; exact NDn).
        destruct (mfind k v) as [x|] eqn:Ek.
        - pose proof (mfind_In_key _ _ _ Ek) as Hk. apply K2, V2 in Hk. destruct Hk as [[]|Hk]. apply in_map_iff in Hk as [[k' l] [<- Hk]]. cbn [fst] in Ek |- *. destruct (F k' l Hk) as [_ F1]. rewrite Ek in F1. injection F1 as ->.
          rewrite (In_mfind_nodup _ (sneg k') (r k')); [reflexivity|rewrite map_map; exact NDn|]. change (sneg k', r k') with ((fun sv : S * list V => (sneg (fst sv), r (fst sv))) (k', l)). now apply in_map.
        - rewrite (proj2 (mfind_None _ k)); [reflexivity|]. rewrite map_map. cbn [fst]. apply mfind_None in Ek. intro Hk. apply Ek, K2, V2. now right. }
      destruct (trim_spec u sing) as [sing' [ET [ST FT]]]; [now apply msorted_nodup|intros k Hk; now apply KU|exact Hs|].
      rewrite ET. cbn [bind]. exists u, v, r. split; [|split; [exact B|split; assumption]]. do 2 f_equal.
      apply msorted_ext; [exact ST|now apply prefixes_sorted|]. intro k. rewrite FT, prefixes_find by exact Hs. destruct (mfind k sing) as [l|] eqn:Ek.
      + pose proof (mfind_In _ _ _ Ek) as Hk. destruct (F k l Hk) as [F1 _]. rewrite F1. destruct B as [_ [B2 _]]. specialize (B2 k l Hk). rewrite firstn_length, Nat.min_l by exact B2.
        destruct (Nat.eqb (r k) 0); [reflexivity|]. cbn [option_map]. unfold resize. replace (r k - length l) with 0 by lia. cbn [repeat]. now rewrite app_nil_r.
      + destruct (mfind k u) as [x|] eqn:Eku; [|reflexivity]. apply mfind_In_key, KU in Eku. apply mfind_None in Ek. contradiction.
  Qed.

  Lemma positives_all : forall l, (forall x, In x l -> greater x vzero = true) -> positives vzero greater l = length l.
  Proof. unfold positives. induction l as [|a l IH]; intro H; [reflexivity|]. cbn [filter]. rewrite (H a) by now left. cbn [length]. f_equal. apply IH. intros; apply H; now right. Qed.
  Lemma svd_cut_positive : forall sing n, msorted sing -> (forall s l, In (s, l) sing -> descending greater l) -> (forall s l x, In (s, l) sing -> In x l -> greater x vzero = true) ->
    n < total_dimension sing ->
    exists u v r, svd_cut vzero greater sing (Some n) = Ok (u, v, prefixes r sing) /\ best_selection greater sing n r /\
      u = map (fun sv => (fst sv, r (fst sv))) sing /\ v = of_list (map (fun sv => (sneg (fst sv), r (fst sv))) sing).
  Proof.
    intros sing n Hs Hd Hp Hn. apply svd_cut_general; auto. rewrite total_sum in Hn.
    assert (E : map (fun sv : S * list V => positives vzero greater (snd sv)) sing = map (fun sv => length (snd sv)) sing).
    { apply map_ext_in. intros [s l] Hin. cbn [snd]. apply positives_all. intros x Hx. now apply (Hp s l). }
    rewrite E. lia.
  Qed.
  Lemma svd_no_cut : forall sing n, total_dimension sing <= n -> svd_cut vzero greater sing (Some n) = Ok ([], [], sing) /\ svd_cut vzero greater sing None = Ok ([], [], sing).
  Proof. intros sing n H. unfold svd_cut. rewrite (proj2 (Nat.ltb_ge _ _) H). auto. Qed.
End CutFacts.
