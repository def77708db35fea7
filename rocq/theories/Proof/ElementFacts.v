(** Lemmas for C43, C45, C55: the non-zero elements of an operator. *)
From Coq Require Import List Bool Arith ZArith Lia Permutation.
From Verif Require Import Base.Outcome Base.SMap Model.Symmetry Model.Schedule Model.Lazy Model.Mpi Model.SimpleUpdate Model.Sampling.
From Verif Require Import Spec.Bonds Spec.Lattice Spec.Sampling Proof.SymmetryFacts Proof.ScheduleFacts Proof.SimpleUpdateFacts Proof.ErgodicFacts.
Import ListNotations.
Open Scope Z_scope.

Lemma next_index_spec : forall d index, valid_spins d index ->
  match next_index d index with
  | Some index' => length index' = length index /\ valid_spins d index' /\ number d index' = number d index + 1
  | None => number d index + 1 = d ^ Z.of_nat (length index)
  end.
Proof.
  intros d. induction index as [|i index IH]; intros H; [reflexivity|]. assert (Hi := H i (or_introl eq_refl)). assert (Hv : valid_spins d index) by (intros s Hs; apply H; right; exact Hs).
  specialize (IH Hv). cbn [next_index]. destruct (Z.eqb_spec (i + 1) d) as [E|E].
  - destruct (next_index d index) as [index'|]; cbn [option_map].
    + destruct IH as [L [Vi Nu]]. split; [cbn; rewrite L; reflexivity|]. split; [intros s [<-|Hs]; [lia|apply Vi; exact Hs]|]. cbn [number fold_right]. fold (number d index) (number d index'). lia.
    + cbn [number fold_right length]. fold (number d index). rewrite Nat2Z.inj_succ, Z.pow_succ_r by lia. nia.
  - split; [reflexivity|]. split; [intros s [<-|Hs]; [lia|apply Hv; exact Hs]|]. cbn [number fold_right]. lia.
Qed.
Definition all_indices (d : Z) (n : nat) : list (list Z) := map (digits d n) (upto (d ^ Z.of_nat n)).
Lemma in_all_indices : forall d n l, 0 < d -> In l (all_indices d n) <-> spins_of d n l.
Proof.
  intros d n l Hd. unfold all_indices, spins_of. rewrite in_map_iff. split.
  - intros [k [<- _]]. split; [apply digits_length|apply digits_valid; exact Hd].
  - intros [<- Vl]. exists (number d l). split; [apply digits_number; exact Vl|apply in_upto, number_range; exact Vl].
Qed.
Lemma all_indices_nodup : forall d n, 0 < d -> NoDup (all_indices d n).
Proof.
  intros d n Hd. unfold all_indices. assert (Q : forall k, In k (upto (d ^ Z.of_nat n)) -> 0 <= k < d ^ Z.of_nat n) by (intros k; apply in_upto). revert Q. assert (ND := nodup_upto (d ^ Z.of_nat n)). induction ND as [|k l Hk ND IH]; intros Q; [constructor|]. cbn. constructor.
  - rewrite in_map_iff. intros [k' [E Hk']]. assert (k' = k); [|congruence]. rewrite <- (number_digits d n k' Hd), <- (number_digits d n k Hd), E by (apply Q; auto using in_eq, in_cons). reflexivity.
  - apply IH. intros k' H'. apply Q. right. exact H'.
Qed.

Section Find.
  Context {V : Type}.
  Variable is_zero : V -> bool.
  Variables (d : Z) (op : operator V) (el : list Z -> V).
  Hypothesis Hd : 0 < d.
  Hypothesis Act : acts_as d op el.
  Variable record : list Z -> list Z -> V -> elements V -> elements V.
  Definition visit (m : elements V) (index : list Z) : elements V := if is_zero (el index) then m else record (firstn (body op) index) (skipn (body op) index) (el index) m.
  Lemma find_loop_spec : forall fuel index m, spins_of d (2 * body op) index -> number d index + Z.of_nat fuel = d ^ Z.of_nat (2 * body op) -> (0 < fuel)%nat ->
    find_loop is_zero record d op fuel index m = Ok (fold_left visit (map (fun i => digits d (2 * body op) (number d index + Z.of_nat i)) (seq 0 fuel)) m).
  Proof.
    induction fuel as [|fuel IH]; intros index m [L Vi] B P; [lia|]. cbn [find_loop]. rewrite (proj2 Act index L Vi). cbn [bind]. set (m' := if is_zero _ then _ else _).
    assert (Hm : m' = visit m index) by reflexivity. cbn [seq map fold_left]. rewrite Z.add_0_r, <- L, digits_number by exact Vi.
    assert (Nx := next_index_spec d index Vi). destruct (next_index d index) as [index'|].
    - destruct Nx as [L' [Vi' Nu]]. destruct fuel as [|fuel].
      + exfalso. assert (Q := number_range d index' Vi'). rewrite L', L, Nu in Q. lia.
      + rewrite IH; [|split; [congruence|exact Vi']|lia|lia]. rewrite Hm. f_equal. f_equal. rewrite L. rewrite <- seq_shift, map_map. apply map_ext. intros i. f_equal. lia.
    - destruct fuel as [|fuel]; [rewrite Hm; reflexivity|]. rewrite L in Nx. lia.
  Qed.
  Lemma find_with_spec : find_with is_zero record d op = Ok (fold_left visit (all_indices d (2 * body op)) []).
  Proof.
    unfold find_with. assert (Hb := proj1 Act). destruct (body op) as [|b] eqn:E; [congruence|]. rewrite <- E.
    assert (Nz : forall n, number d (repeat 0 n) = 0) by (induction n as [|n IHn]; [reflexivity|]; cbn [repeat number fold_right]; fold (number d (repeat 0 n)); lia).
    assert (Pw : Z.of_nat (Z.to_nat d ^ (2 * body op)) = d ^ Z.of_nat (2 * body op)) by (rewrite Nat2Z.inj_pow; f_equal; lia).
    rewrite find_loop_spec.
    - f_equal. f_equal. unfold all_indices, upto. rewrite map_map, Nz. rewrite <- Pw, Nat2Z.id. apply map_ext. intros i. rewrite Z.add_0_l. reflexivity.
    - split; [apply repeat_length|]. intros s Hs. apply repeat_spec in Hs. lia.
    - rewrite Nz. lia.
    - apply Nat.neq_0_lt_0. apply Nat.pow_nonzero. lia.
  Qed.
End Find.

Section Rows.
  Context {V : Type}.
  Variable is_zero : V -> bool.
  Variables (d : Z) (op : operator V) (el : list Z -> V).
  Hypothesis Hd : 0 < d.
  Hypothesis Act : acts_as d op el.
  Variable keep : list Z -> list Z -> bool.
  Definition record_if (ins outs : list Z) (v : V) (m : elements V) : elements V := mset ins (if keep ins outs then mset outs v (row_of ins m) else row_of ins m) m.
  Definition table (L : list (list Z)) (m : elements V) : Prop :=
    msorted m /\ (forall ins, msorted (row_of ins m)) /\
    (forall ins outs v, length ins = body op -> (mfind outs (row_of ins m) = Some v <-> In (ins ++ outs) L /\ v = el (ins ++ outs) /\ is_zero v = false /\ keep ins outs = true)) /\
    (forall ins, length ins = body op -> (mfind ins m <> None <-> exists outs, In (ins ++ outs) L /\ is_zero (el (ins ++ outs)) = false)).
  Lemma table_visit : forall L m index, table L m -> length index = (2 * body op)%nat -> table (L ++ [index]) (visit is_zero op el record_if m index).
  Proof.
    intros L m index [Sm [Sr [Rows Keys]]] Len. set (ins0 := firstn (body op) index). set (outs0 := skipn (body op) index).
    assert (Sp : index = ins0 ++ outs0) by (symmetry; apply firstn_skipn). assert (L0 : length ins0 = body op) by (unfold ins0; rewrite firstn_length; lia).
    unfold visit. fold ins0 outs0. destruct (is_zero (el index)) eqn:Ez.
    - split; [exact Sm|]. split; [exact Sr|]. split.
      + intros ins outs v Li. rewrite Rows by exact Li. rewrite in_app_iff. cbn [In]. split; [tauto|]. intros [[H|[H|[]]] Q]; [tauto|]. exfalso. destruct Q as [-> [Q _]]. rewrite <- H in Q. congruence.
      + intros ins Li. rewrite Keys by exact Li. setoid_rewrite in_app_iff. cbn [In]. split; [intros [outs H]; exists outs; tauto|]. intros [outs [[H|[H|[]]] Q]]; [exists outs; tauto|]. rewrite <- H in Q. congruence.
    - assert (RO : forall ins, row_of ins (record_if ins0 outs0 (el index) m) = if eqb ins ins0 then (if keep ins0 outs0 then mset outs0 (el index) (row_of ins0 m) else row_of ins0 m) else row_of ins m).
      { intros ins. unfold record_if. unfold row_of at 1. destruct (eqb ins ins0) eqn:E.
        - apply eqb_eq in E. subst ins. rewrite mfind_mset_same. reflexivity.
        - apply eqb_false in E. rewrite mfind_mset_other by exact E. reflexivity. }
      split; [apply mset_sorted; exact Sm|]. split; [|split].
      + intros ins. rewrite RO. destruct (eqb ins ins0); [|apply Sr]. destruct (keep ins0 outs0); [apply mset_sorted|]; apply Sr.
      + intros ins outs v Li. rewrite RO, in_app_iff. cbn [In]. destruct (eqb ins ins0) eqn:E.
        * apply eqb_eq in E. subst ins. destruct (keep ins0 outs0) eqn:Ek.
          -- destruct (ord_dec outs outs0) as [->|Hn].
             ++ rewrite mfind_mset_same, <- Sp. split; [intros H; injection H as <-; tauto|]. intros [_ [-> _]]. reflexivity.
             ++ rewrite mfind_mset_other by exact Hn. rewrite Rows by exact Li. split; [tauto|]. intros [[H|[H|[]]] Q]; [tauto|]. exfalso. apply Hn. rewrite Sp in H. apply app_inv_head in H. congruence.
          -- rewrite Rows by exact Li. split; [tauto|]. intros [[H|[H|[]]] Q]; [tauto|]. exfalso. rewrite Sp in H. apply app_inv_head in H. subst outs. destruct Q as [_ [_ Q]]. congruence.
        * apply eqb_false in E. rewrite Rows by exact Li. split; [tauto|]. intros [[H|[H|[]]] Q]; [tauto|]. exfalso. apply E. rewrite Sp in H. apply (f_equal (firstn (body op))) in H.
          rewrite !firstn_app, Li, L0, Nat.sub_diag in H. cbn [firstn] in H. rewrite !app_nil_r in H. rewrite <- Li in H at 2. rewrite <- L0 in H at 1. rewrite !firstn_all in H. congruence.
      + intros ins Li. setoid_rewrite in_app_iff. cbn [In]. unfold record_if. destruct (ord_dec ins ins0) as [->|Hn].
        * rewrite mfind_mset_same. split; [|discriminate]. intros _. exists outs0. rewrite <- Sp. tauto.
        * rewrite mfind_mset_other by exact Hn. rewrite Keys by exact Li. split; [intros [outs H]; exists outs; tauto|]. intros [outs [[H|[H|[]]] Q]]; [exists outs; tauto|]. exfalso. apply Hn.
          rewrite Sp in H. apply (f_equal (firstn (body op))) in H. rewrite !firstn_app, Li, L0, Nat.sub_diag in H. cbn [firstn] in H. rewrite !app_nil_r in H. rewrite <- Li in H at 2. rewrite <- L0 in H at 1. rewrite !firstn_all in H. congruence.
  Qed.
  Lemma table_all : forall L' L m, table L m -> (forall index, In index L' -> length index = (2 * body op)%nat) -> table (L ++ L') (fold_left (visit is_zero op el record_if) L' m).
  Proof.
    induction L' as [|index L' IH]; intros L m T H; [rewrite app_nil_r; exact T|]. cbn [fold_left]. replace (L ++ index :: L') with ((L ++ [index]) ++ L') by (rewrite <- app_assoc; reflexivity).
    apply IH; [apply table_visit; [exact T|apply H; left; reflexivity]|]. intros index' H'. apply H. right. exact H'.
  Qed.
  Lemma table_found : table (all_indices d (2 * body op)) (fold_left (visit is_zero op el record_if) (all_indices d (2 * body op)) []).
  Proof.
    apply (table_all _ []).
    - split; [constructor|]. split; [intros ins; constructor|]. split; [intros ins outs v _; cbn; split; [discriminate|intros [[] _]]|intros ins _; cbn; split; [congruence|intros [outs [[] _]]]].
    - intros index H. apply in_all_indices in H; [|exact Hd]. apply H.
  Qed.
End Rows.

Section Results.
  Context {V : Type}.
  Variable is_zero : V -> bool.
  Variables (d : Z) (op : operator V) (el : list Z -> V).
  Hypothesis Hd : 0 < d.
  Hypothesis Act : acts_as d op el.
  (** what the two functions return *)
  Definition lists (keep : list Z -> list Z -> Prop) (m : elements V) : Prop := forall ins, spins_of d (body op) ins ->
    (mfind ins m = None <-> forall outs, spins_of d (body op) outs -> is_zero (el (ins ++ outs)) = true) /\
    (forall row, mfind ins m = Some row -> NoDup (map fst row) /\ forall outs v, In (outs, v) row <-> spins_of d (body op) outs /\ v = el (ins ++ outs) /\ is_zero v = false /\ keep ins outs).
  Lemma spins_app : forall n ins outs, length ins = n -> (spins_of d (2 * n) (ins ++ outs) <-> spins_of d n ins /\ spins_of d n outs).
  Proof.
    intros n ins outs Li. unfold spins_of, valid_spins. rewrite app_length. setoid_rewrite in_app_iff. split.
    - intros [H1 H2]. split; (split; [lia|]); intros s Hs; apply H2; tauto.
    - intros [[H1 H2] [H3 H4]]. split; [lia|]. intros s [Hs|Hs]; auto.
  Qed.
  Lemma table_lists : forall keep m, table is_zero op el keep (all_indices d (2 * body op)) m -> lists (fun ins outs => keep ins outs = true) m.
  Proof.
    intros keep m [Sm [Sr [Rows Keys]]] ins Hi. assert (Li := proj1 Hi). assert (IA : forall outs, In (ins ++ outs) (all_indices d (2 * body op)) <-> spins_of d (body op) outs).
    { intros outs. rewrite in_all_indices by exact Hd. rewrite spins_app by exact Li. tauto. }
    split.
    - specialize (Keys ins Li). split.
      + intros E outs Ho. destruct (is_zero (el (ins ++ outs))) eqn:Ez; [reflexivity|]. exfalso. assert (Q : mfind ins m <> None) by (apply Keys; exists outs; rewrite IA; tauto). contradiction.
      + intros H. destruct (mfind ins m) eqn:E; [|reflexivity]. exfalso. destruct (proj1 Keys ltac:(discriminate)) as [outs [Ho Ez]]. apply IA in Ho. rewrite H in Ez by exact Ho. discriminate.
    - intros row E. assert (Er : row_of ins m = row) by (unfold row_of; rewrite E; reflexivity). assert (Ms := Sr ins). rewrite Er in Ms. split; [apply msorted_nodup; exact Ms|].
      intros outs v. specialize (Rows ins outs v Li). rewrite Er, IA in Rows. rewrite <- Rows. split; [apply In_mfind; exact Ms|apply mfind_In].
  Qed.
  Theorem find_element_lists : exists m, find_element is_zero d op = Ok m /\ lists (fun _ _ => True) m.
  Proof.
    eexists. split; [apply (find_with_spec is_zero d op el Hd Act)|].
    assert (Q := table_lists _ _ (table_found is_zero d op el Hd (fun _ _ => true))). intros ins Hi. destruct (Q ins Hi) as [Q1 Q2]. split; [exact Q1|]. intros row E. destruct (Q2 row E) as [ND Q3]. split; [exact ND|].
    intros outs v. rewrite Q3. intuition.
  Qed.
  Theorem find_hopping_lists : exists m, find_hopping is_zero d op = Ok m /\ lists (fun ins outs => ins <> outs) m.
  Proof.
    eexists. split; [apply (find_with_spec is_zero d op el Hd Act)|].
    assert (Q := table_lists _ _ (table_found is_zero d op el Hd (fun ins outs => negb (eqb ins outs)))).
    assert (Ext : forall L m, fold_left (visit is_zero op el record_hopping) L m = fold_left (visit is_zero op el (record_if (fun ins outs => negb (eqb ins outs)))) L m).
    { induction L as [|index L IH]; intros m; [reflexivity|]. cbn [fold_left]. rewrite IH. f_equal. unfold visit, record_if, record_hopping. destruct (is_zero (el index)); [reflexivity|].
      destruct (eqb (firstn (body op) index) (skipn (body op) index)); reflexivity. }
    rewrite Ext. intros ins Hi. destruct (Q ins Hi) as [Q1 Q2]. split; [exact Q1|]. intros row E. destruct (Q2 row E) as [ND Q3]. split; [exact ND|].
    intros outs v. rewrite Q3, negb_true_iff, eqb_false. tauto.
  Qed.
End Results.

(** ** the caches *)
Section Cache.
  Context {V : Type}.
  Variable find : Z -> operator V -> res (elements V).
  Lemma requests_fresh : forall history cache, 
    (forall a d op d' op', In (a, d, op) history -> In (a, d', op') history -> d = d' /\ op = op') ->
    (forall a d op m, In (a, d, op) history -> mfind a cache = Some m -> find d op = Ok m) ->
    requests find history cache = mapM (fun r => find (snd (fst r)) (snd r)) history.
  Proof.
    induction history as [|[[a d] op] history IH]; intros cache Same Coh; [reflexivity|]. cbn [requests mapM]. unfold cached. cbn [fst snd].
    assert (Same' : forall a d op d' op', In (a, d, op) history -> In (a, d', op') history -> d = d' /\ op = op') by (intros; eapply Same; right; eassumption).
    destruct (mfind a cache) as [m|] eqn:Ea.
    - rewrite (Coh a d op m (or_introl eq_refl) Ea). cbn [bind fst snd]. rewrite IH; [reflexivity|exact Same'|]. intros a' d' op' m' H. apply Coh. right. exact H.
    - destruct (find d op) as [m| | |] eqn:Ef; cbn [bind]; try reflexivity. cbn [fst snd]. rewrite IH; [reflexivity|exact Same'|]. intros a' d' op' m' H E. destruct (Nat.eq_dec a' a) as [->|Hn].
      + rewrite mfind_mset_same in E. injection E as <-. destruct (Same a d op d' op' (or_introl eq_refl) (or_intror H)) as [<- <-]. exact Ef.
      + rewrite mfind_mset_other in E by exact Hn. apply (Coh a' d' op' m' (or_intror H) E).
  Qed.
  Theorem requests_true : forall history, (forall a d op d' op', In (a, d, op) history -> In (a, d', op') history -> d = d' /\ op = op') ->
    requests find history [] = mapM (fun r => find (snd (fst r)) (snd r)) history.
  Proof. intros history Same. apply requests_fresh; [exact Same|]. intros a d op m _ E. discriminate. Qed.
End Cache.
