(** Lemmas for C43, C45, C55: changing the spins of some sites. *)
From Coq Require Import List Bool Arith ZArith Lia Permutation.
From Verif Require Import Base.Outcome Base.SMap Model.Symmetry Model.Schedule Model.Lazy Model.Mpi Model.SimpleUpdate Model.Sampling.
From Verif Require Import Spec.Bonds Spec.Lattice Spec.Sampling Proof.SymmetryFacts Proof.ScheduleFacts Proof.SimpleUpdateFacts Proof.ErgodicFacts.
Import ListNotations.
Open Scope Z_scope.

Section Flip.
  Variables M N : Z.
  Notation set_all := (foldM (fun c (ps : site * Z) => set_spin c (fst ps) (snd ps))).
  Lemma set_all_ok : forall l c, NoDup (map fst l) -> (forall p s, In (p, s) l -> inside M N p) -> rectangle M N c ->
    exists c', set_all l c = Ok c' /\ rectangle M N c' /\ (forall p s, In (p, s) l -> spin c' p = s) /\ forall q, inside M N q -> ~ In q (map fst l) -> spin c' q = spin c q.
  Proof.
    induction l as [|[p s] l IH]; intros c ND I R.
    - exists c. split; [reflexivity|]. split; [exact R|]. split; [intros p s []|reflexivity].
    - cbn [map fst] in ND. inversion ND as [|? ? Hp ND']; subst. assert (Ip := I p s (or_introl eq_refl)). destruct (set_spin_ok M N c p s R Ip) as [c1 [E1 [R1 S1]]].
      destruct (IH c1 ND' (fun q t H => I q t (or_intror H)) R1) as [c' [E [R' [S' O]]]]. exists c'. cbn [foldM fst snd]. rewrite E1. cbn [bind]. split; [exact E|]. split; [exact R'|]. split.
      + intros q t [H|H]; [inversion H; subst|apply S'; exact H]. rewrite O by assumption. rewrite S1 by exact Ip. rewrite eqb_refl. reflexivity.
      + intros q Iq Hq. cbn [map fst In] in Hq. rewrite O by tauto. rewrite S1 by exact Iq. destruct (eqb q p) eqn:Eq; [apply eqb_eq in Eq; subst q; tauto|reflexivity].
  Qed.
  (** c' is c with the given spins at ps *)
  Definition flipped (c : configuration) (ps : positions) (spins : list Z) (c' : configuration) : Prop :=
    rectangle M N c' /\ spins_at c' ps = spins /\ forall q, inside M N q -> ~ In q ps -> spin c' q = spin c q.
  Lemma flipped_unique : forall c ps spins c1 c2, flipped c ps spins c1 -> flipped c ps spins c2 -> c1 = c2.
  Proof.
    intros c ps spins c1 c2 [R1 [S1 O1]] [R2 [S2 O2]]. apply (spin_ext M N); [exact R1|exact R2|]. intros p I. destruct (in_dec ord_dec p ps) as [H|H].
    - assert (E : spins_at c1 ps = spins_at c2 ps) by congruence. revert p H I. unfold spins_at in E. intros p H _. revert p H. apply map_ext_in_iff. exact E.
    - rewrite O1, O2 by assumption. reflexivity.
  Qed.
  Lemma in_combine_spins : forall c (ps : list site) p s, In (p, s) (combine ps (spins_at c ps)) -> In p ps /\ s = spin c p.
  Proof. intros c ps p s. unfold spins_at. induction ps as [|q ps IH]; intros H; [destruct H|]. destruct H as [H|H]; [inversion H; subst; split; [left|]; reflexivity|]. destruct (IH H). split; [right|]; assumption. Qed.
  Lemma combine_keys : forall A (ps : list site) (l : list A), length l = length ps -> map fst (combine ps l) = ps.
  Proof. intros A ps. induction ps as [|p ps IH]; intros [|a l] H; try discriminate; [reflexivity|]. cbn. f_equal. apply IH. cbn in H. lia. Qed.
  Lemma spins_from_pairs : forall c (ps : list site) spins, length spins = length ps -> (forall p s, In (p, s) (combine ps spins) -> spin c p = s) -> spins_at c ps = spins.
  Proof.
    intros c ps. induction ps as [|p ps IH]; intros [|s spins] L H; try discriminate; [reflexivity|]. cbn. f_equal; [apply H; left; reflexivity|]. apply IH; [cbn in L; lia|]. intros q t Hq. apply H. right. exact Hq.
  Qed.
  Lemma set_all_flipped : forall c (ps : positions) spins, NoDup ps -> (forall p, In p ps -> inside M N p) -> rectangle M N c -> length spins = length ps ->
    exists c', set_all (combine ps spins) c = Ok c' /\ flipped c ps spins c'.
  Proof.
    intros c ps spins ND I R L. destruct (set_all_ok (combine ps spins) c) as [c' [E [R' [S' O]]]].
    - rewrite combine_keys by exact L. exact ND.
    - intros p s H. apply I. apply in_combine_l in H. exact H.
    - exact R.
    - exists c'. split; [exact E|]. split; [exact R'|]. split; [apply spins_from_pairs; assumption|]. intros q Iq Hq. apply O; [exact Iq|]. rewrite combine_keys by exact L. exact Hq.
  Qed.
  Lemma replacement_ok : forall (ps : positions) spins m, NoDup ps -> length spins = length ps -> msorted m -> (forall p s, In (p, s) m -> ~ In p ps) ->
    exists m', replacement ps spins m = Ok m' /\ msorted m' /\ forall p s, In (p, s) m' <-> In (p, s) m \/ In (p, s) (combine ps spins).
  Proof.
    induction ps as [|p ps IH]; intros spins m ND L Sm Fr.
    - exists m. split; [reflexivity|]. split; [exact Sm|]. cbn. tauto.
    - destruct spins as [|s spins]; [discriminate|]. inversion ND as [|? ? Hp ND']; subst.
      assert (QI : forall q t, In (q, t) (mset p s m) <-> In (q, t) m \/ (p, s) = (q, t)).
      { intros q t. assert (Sm' := mset_sorted m p s Sm). split.
        - intros H. apply (In_mfind _ _ _ Sm') in H. destruct (ord_dec q p) as [->|Hn]; [rewrite mfind_mset_same in H; right; congruence|]. rewrite mfind_mset_other in H by exact Hn. left. apply mfind_In. exact H.
        - intros [H|H]; apply mfind_In; [|inversion H; subst; apply mfind_mset_same]. rewrite mfind_mset_other; [apply In_mfind; assumption|]. intros ->. apply (Fr p t H). left. reflexivity. }
      destruct (IH spins (mset p s m) ND') as [m' [E [S' Q]]].
      + cbn in L. lia.
      + apply mset_sorted. exact Sm.
      + intros q t H. apply QI in H. destruct H as [H|H]; [intros Hq; apply (Fr q t H); right; exact Hq|inversion H; subst; exact Hp].
      + exists m'. cbn [replacement]. split; [exact E|]. split; [exact S'|]. intros q t. rewrite Q, QI. cbn [combine In]. tauto.
  Qed.
  Lemma changed_ok : forall (c : configuration) (m l : list (site * Z)), rectangle M N c -> (forall p s, In (p, s) m -> inside M N p) -> msorted l -> NoDup (map fst m) -> (forall p s, In (p, s) l -> ~ In p (map fst m)) ->
    exists l', foldM (fun (l : list (site * Z)) (ps : site * Z) => bind (get_spin c (fst ps)) (fun old => Ok (if old =? snd ps then l else mset (fst ps) (snd ps) l))) m l = Ok l' /\ msorted l' /\
      forall p s, In (p, s) l' <-> In (p, s) l \/ In (p, s) m /\ spin c p <> s.
  Proof.
    intros c m. induction m as [|[p s] m IH]; intros l R I Sl ND Fr.
    - exists l. split; [reflexivity|]. split; [exact Sl|]. cbn. tauto.
    - cbn [map fst] in ND. inversion ND as [|? ? Hp ND']; subst. cbn [foldM fst snd]. rewrite (get_spin_ok M N c p R (I p s (or_introl eq_refl))). cbn [bind].
      destruct (Z.eqb_spec (spin c p) s) as [E|E].
      + destruct (IH l R (fun q t H => I q t (or_intror H)) Sl ND' (fun q t H Hq => Fr q t H (or_intror Hq))) as [l' [E' [S' Q]]]. exists l'. split; [exact E'|]. split; [exact S'|].
        intros q t. rewrite Q. cbn [In]. split; [tauto|]. intros [H|[[H|H] Hn]]; [tauto| |tauto]. inversion H. subst. contradiction.
      + assert (QI : forall q t, In (q, t) (mset p s l) <-> In (q, t) l \/ (p, s) = (q, t)).
        { intros q t. assert (Sm' := mset_sorted l p s Sl). split.
          - intros H. apply (In_mfind _ _ _ Sm') in H. destruct (ord_dec q p) as [->|Hn]; [rewrite mfind_mset_same in H; right; congruence|]. rewrite mfind_mset_other in H by exact Hn. left. apply mfind_In. exact H.
          - intros [H|H]; apply mfind_In; [|inversion H; subst; apply mfind_mset_same]. rewrite mfind_mset_other; [apply In_mfind; assumption|]. intros ->. apply (Fr p t H). left. reflexivity. }
        destruct (IH (mset p s l) R (fun q t H => I q t (or_intror H)) (mset_sorted l p s Sl) ND') as [l' [E' [S' Q]]].
        * intros q t H. apply QI in H. destruct H as [H|H]; [intros Hq; apply (Fr q t H); right; exact Hq|inversion H; subst; exact Hp].
        * exists l'. split; [exact E'|]. split; [exact S'|]. intros q t. rewrite Q, QI. cbn [In]. split; [|tauto]. intros [[H|H]|[H Hn]]; [tauto| |tauto]. inversion H. subst. tauto.
  Qed.
  Context {V : Type}.
  Variable amplitude : configuration -> V.
  (** the amplitude with the replaced spins *)
  Lemma replaced_ok : forall c (ps : positions) spins, NoDup ps -> (forall p, In p ps -> inside M N p) -> rectangle M N c -> length spins = length ps ->
    exists m c', replacement ps spins [] = Ok m /\ flipped c ps spins c' /\ replaced amplitude c m (amplitude c) = Ok (amplitude c').
  Proof.
    intros c ps spins ND I R L. destruct (replacement_ok ps spins [] ND L) as [m [Em [Sm Qm]]]; [constructor|intros p s []|].
    assert (Im : forall p s, In (p, s) m -> inside M N p). { intros p s H. apply Qm in H. destruct H as [[]|H]. apply I. apply in_combine_l in H. exact H. }
    destruct (changed_ok c m [] R Im) as [l [El [Sl Ql]]]; [constructor|apply msorted_nodup; exact Sm|intros p s []|].
    destruct (set_all_ok l c) as [c' [Ec [Rc [Sc Oc]]]].
    - apply msorted_nodup. exact Sl.
    - intros p s H. apply Ql in H. destruct H as [[]|[H _]]. apply (Im p s H).
    - exact R.
    - assert (Keys : forall p s, In (p, s) m -> spin c' p = s).
      { intros p s H. destruct (Z.eq_dec (spin c p) s) as [E|E]; [|apply Sc, Ql; right; tauto]. rewrite Oc; [exact E|apply (Im p s H)|]. intros Hk. apply in_map_iff in Hk. destruct Hk as [[q t] [Eq Hk]]. cbn in Eq. subst q.
        apply Ql in Hk. destruct Hk as [[]|[Hk Hn]]. assert (s = t); [|congruence]. apply (In_mfind _ _ _ Sm) in H, Hk. congruence. }
      exists m, c'. split; [exact Em|]. split.
      + split; [exact Rc|]. split.
        * apply spins_from_pairs; [exact L|]. intros p s H. apply Keys, Qm. right. exact H.
        * intros q Iq Hq. apply Oc; [exact Iq|]. intros Hk. apply in_map_iff in Hk. destruct Hk as [[q' t] [Eq Hk]]. cbn in Eq. subst q'. apply Ql in Hk. destruct Hk as [[]|[Hk _]]. apply Qm in Hk. destruct Hk as [[]|Hk]. apply in_combine_l in Hk. contradiction.
      + unfold replaced. rewrite El. cbn [bind]. destruct l as [|x l]; [|rewrite Ec; reflexivity]. cbn in Ec. congruence.
  Qed.
  Lemma current_ok : forall c (ps : positions), (forall p, In p ps -> inside M N p) -> rectangle M N c -> mapM (get_spin c) ps = Ok (spins_at c ps).
  Proof. intros c ps I R. apply mapM_all_ok. intros p Hp. apply (get_spin_ok M N); [exact R|apply I; exact Hp]. Qed.
  Lemma spins_at_valid : forall d c (ps : positions), valid_configuration M N d c -> (forall p, In p ps -> inside M N p) -> spins_of d (length ps) (spins_at c ps).
  Proof.
    intros d c ps Vc I. split; [apply map_length|]. intros s H. apply in_map_iff in H. destruct H as [p [<- Hp]]. apply (proj1 (spins_valid M N d c) Vc). apply I. exact Hp.
  Qed.
  Lemma flipped_valid : forall d c (ps : positions) spins c', valid_configuration M N d c -> flipped c ps spins c' -> valid_spins d spins -> valid_configuration M N d c'.
  Proof.
    intros d c ps spins c' Vc [R [S O]] Vs. apply spins_valid. split; [exact R|]. intros p I. destruct (in_dec ord_dec p ps) as [H|H].
    - apply Vs. rewrite <- S. apply in_map. exact H.
    - rewrite O by assumption. apply (proj1 (spins_valid M N d c) Vc). exact I.
  Qed.
  Lemma flipped_back : forall c (ps : positions) spins c', rectangle M N c -> flipped c ps spins c' -> flipped c' ps (spins_at c ps) c.
  Proof. intros c ps spins c' R [R' [S O]]. split; [exact R|]. split; [reflexivity|]. intros q I H. symmetry. apply O; assumption. Qed.
End Flip.
