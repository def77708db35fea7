(** The vector of an exact lattice is the wave function of the network up to a factor. *)
From Coq Require Import String Ascii List Bool Arith ZArith Lia Permutation.
From Verif Require Import Base.Outcome Base.SMap Model.Symmetry Model.Edge Model.Core Model.EdgeOperator Model.Elementwise Model.Contract Model.Misc Model.ShrinkExpand Model.Qr Model.Svd Model.Auxiliaries Model.Spins Model.SimpleTensor Model.Exact
  Spec.Blocks Spec.Relabel Spec.Contract Spec.Plain Spec.Lapack Spec.Grid Spec.SquareLattice Spec.SpinLattice Spec.Factor Spec.Truncate Spec.Spectrum Spec.Svd Spec.ExactState Proof.LoopFacts Proof.SumFacts Proof.CoreFacts Proof.ElemFacts Proof.ContractNames Proof.PlainFacts Proof.PlainTools Proof.PlainElem Proof.SumBonds Proof.GridSum Proof.LatticeAmplitude Proof.SpinFacts Proof.SpinAmplitude Proof.ExactVector Proof.ExactValue.
From Verif Require Proof.StripFold.
Import ListNotations.

Section Norm.
  Context {R V : Type} {RR : Scalar R}.
  Notation tens := (tensor unit R).
  Variables (vzero : V) (greater : V -> V -> bool) (of_real : V -> R) (abs : R -> V).
  Hypothesis HV : modulus vzero greater of_real abs.
  Notation norm_t := (norm_t vzero greater abs).
  Notation max_step := (fun acc x => if greater (abs x) acc then abs x else acc).

  Definition sane (v : V) : Prop := v = vzero \/ greater v vzero = true.
  Lemma max_list : forall l acc, sane acc ->
    sane (fold_left max_step l acc) /\ (greater acc vzero = true -> greater (fold_left max_step l acc) vzero = true) /\
    (greater (fold_left max_step l acc) vzero = false -> forall x, In x l -> x = rzero).
  Proof.
    pose proof (m_order _ _ _ _ HV) as HO. induction l as [|x l IH]; intros acc Ha; cbn [fold_left]; [split; [exact Ha|]; split; [auto|intros _ x []]|].
    set (acc' := if greater (abs x) acc then abs x else acc).
    assert (S' : sane acc').
    { unfold acc'. destruct (greater (abs x) acc) eqn:G; [|exact Ha]. right. destruct Ha as [->|Ha]; [exact G|]. now apply (so_trans _ HO _ acc). }
    assert (P : greater acc vzero = true -> greater acc' vzero = true).
    { intro H. unfold acc'. destruct (greater (abs x) acc) eqn:G; [|exact H]. now apply (so_trans _ HO _ acc). }
    destruct (IH acc' S') as [I1 [I2 I3]]. split; [exact I1|]. split; [auto|]. intros Z y [<-|Hy]; [|now apply I3].
    destruct (greater acc' vzero) eqn:G; [rewrite I2 in Z by reflexivity; discriminate|]. apply (m_zero _ _ _ _ HV). unfold acc' in G.
    destruct (greater (abs x) acc) eqn:G2; [exact G|]. destruct Ha as [->|Ha]; [exact G2|congruence].
  Qed.
  Lemma norm_blocks : forall (bs : list (list unit * list R)) acc, sane acc ->
    sane (fold_left (fun acc kb => fold_left max_step (snd kb) acc) bs acc) /\ (greater acc vzero = true -> greater (fold_left (fun acc kb => fold_left max_step (snd kb) acc) bs acc) vzero = true) /\
    (greater (fold_left (fun acc kb => fold_left max_step (snd kb) acc) bs acc) vzero = false -> forall k b x, In (k, b) bs -> In x b -> x = rzero).
  Proof.
    induction bs as [|[k b] bs IH]; intros acc Ha; cbn [fold_left]; [split; [exact Ha|]; split; [auto|intros _ k b x []]|]. cbn [snd].
    destruct (max_list b acc Ha) as [A1 [A2 A3]]. destruct (IH _ A1) as [I1 [I2 I3]]. split; [exact I1|]. split; [auto|].
    intros Z k' b' x [Q|Hin] Hx; [injection Q as <- <-|now apply (I3 Z k' b')]. apply A3; [|exact Hx].
    destruct (greater (fold_left max_step b acc) vzero) eqn:G; [rewrite I2 in Z by reflexivity; discriminate|reflexivity].
  Qed.
  (** a tensor has a norm that can be divided by, or it is zero *)
  Lemma norm_or_zero : forall t K, has t K -> of_real (norm_t t) <> rzero \/ forall a, in_slots K a -> value t a = rzero.
  Proof.
    intros t K Ht. destruct (norm_blocks (t_blocks t) vzero (or_introl eq_refl)) as [_ [_ H]]. fold (norm_t t) in H. change (fold_left _ (t_blocks t) vzero) with (norm_t t) in H. destruct (greater (norm_t t) vzero) eqn:G.
    - left. now apply (m_positive _ _ _ _ HV).
    - right. intros a Ha. specialize (H eq_refl). destruct (transform_has t K (fun _ => rzero) Ht) as [_ H2]. rewrite <- (H2 a Ha). f_equal. destruct t as [names [es bs]]. unfold transform. cbn. f_equal. f_equal.
      cbn in H. clear - H. induction bs as [|[k b] bs IH]; [reflexivity|]. cbn [map fst snd]. f_equal.
      + f_equal. assert (H' : forall x, In x b -> x = rzero) by (intros x Hx; apply (H k b x); [now left|exact Hx]). clear - H'. induction b as [|x b IH]; [reflexivity|]. cbn. rewrite (H' x) by (now left). f_equal. apply IH. intros y Hy. apply H'. now right.
      + apply IH. intros k' b' x Hin. apply (H k' b' x). now right.
  Qed.
End Norm.

Section Main.
  Context {R V : Type} {RR : Scalar R}.
  Notation tens := (tensor unit R).
  Hypotheses (EA : exact_arithmetic R) (MA : associative_product R) (MD : distributive_product R) (DV : dividing R).
  Variables (E : @env R) (J : internal).
  Hypothesis HJ : NoDup [i_contract_0 J; i_contract_1 J; i_contract_2 J].
  Variables (vzero : V) (greater : V -> V -> bool) (of_real : V -> R) (abs : R -> V).
  Hypothesis HV : modulus vzero greater of_real abs.
  Notation norm_t := (norm_t vzero greater abs).
  Notation normal := (normal vzero greater of_real abs).
  Variables (M N d : nat) (dim : bond -> nat) (T : nat -> nat -> tens).
  Hypothesis HT : forall i j, i < M -> j < N -> fits_spin M N dim d i j (T i j).
  Notation edges_at := (edges_at M N d dim).
  Notation inv := (inv M N d dim T).
  Notation dead := (dead M N d dim T).

  Definition state_at (i j : nat) (v : tens) : Prop := has v (edges_at i j) /\ ((exists c, inv i j v c) \/ dead i j).

  (** c is a common factor of two values *)
  Lemma normal_ok : forall i j v, has v (edges_at i j) -> (exists c, inv i j v c) \/ dead i j -> state_at i j (normal v).
  Proof.
    intros i j v Hv [[c I0]|D]; (split; [now apply transform_has|]); [|now right].
    destruct (norm_or_zero vzero greater of_real abs HV v _ Hv) as [Hn|Z].
    - left. exists (rmul c (of_real (norm_t v))). intros a q Ha Hq. rewrite <- (I0 a q Ha Hq). destruct (transform_has v _ (fun x => rdiv x (of_real (norm_t v))) Hv) as [_ H]. unfold normal at 1. rewrite (H a Ha).
      rewrite MA, (ea_mul_comm R EA (of_real _)). now rewrite DV.
    - right. intros a q Ha Hq. rewrite <- (I0 a q Ha Hq), (Z a Ha), (ea_mul_comm R EA). apply (ea_mul_0 R EA).
  Qed.
  Lemma absorb_ok : forall i j v, i < M -> j < N -> state_at i j v -> exists w, absorb E J vzero greater of_real abs v i j (T i j) = Ok w /\ state_at i (S j) w.
  Proof.
    intros i j v Hi Hj [Hv Hs]. destruct (absorb_edges EA E J HJ M N d dim T HT v i j Hi Hj Hv) as [r [R1 [R2 R3]]]. exists (normal r). split; [unfold absorb; unfold names_at, joined in R1; rewrite R1; reflexivity|].
    apply normal_ok; [exact R2|]. destruct Hs as [[c I0]|D]; [left; exists c; exact (step_inv EA MA MD M N d dim T HT v r i j c Hi Hj I0 R3)|right; exact (step_dead EA MA MD M N d dim T i j Hi Hj D)].
  Qed.
  Variable get : nat * nat -> res tens.
  Hypothesis Hget : forall i j, i < M -> j < N -> get (i, j) = Ok (T i j).
  Definition walk (l : list (nat * nat)) (v : tens) : res tens := foldM (fun v ij => bind (get ij) (absorb E J vzero greater of_real abs v (fst ij) (snd ij))) l v.
  Lemma walk_row : forall i, i < M -> forall v0, state_at i 0 v0 -> forall j, j <= N -> exists v, walk (map (pair i) (seq 0 j)) v0 = Ok v /\ state_at i j v.
  Proof.
    intros i Hi v0 H0. induction j as [|j IH]; intro Hj; [exists v0; split; [reflexivity|exact H0]|]. destruct IH as [v [V1 V2]]; [lia|].
    destruct (absorb_ok i j v Hi Hj V2) as [w [W1 W2]]. exists w. split; [|exact W2]. unfold walk in *. rewrite seq_S, map_app, foldM_app, V1. cbn [bind map foldM fst snd Nat.add].
    rewrite Hget by assumption. cbn [bind]. rewrite W1. reflexivity.
  Qed.
  Lemma row_state : forall i v, state_at i N v -> state_at (S i) 0 v.
  Proof.
    intros i v [H1 H2]. split; [eapply has_ext; [exact H1|intro n; apply row_slots]|]. destruct H2 as [[c H]|H]; [left; exists c; now apply row_inv|right; now apply row_dead].
  Qed.
  Lemma start_has : has (@unit_tensor R RR) (edges_at 0 0).
  Proof.
    eapply has_ext; [exact StripFold.unit_has|]. intro n. change (None = slot (edges_at 0 0) n). destruct (in_dec Nat.eq_dec n (keys (edges_at 0 0))) as [K|K]; [|symmetry; now apply slot_out].
    apply keys_at in K. unfold slot. destruct K as [[a [b [[] _]]]|[[k [Hk ->]]| ->]]; [now rewrite find_down|now rewrite find_right].
  Qed.
  Lemma start : state_at 0 0 unit_tensor.
  Proof.
    split; [exact start_has|]. left. exists rone. intros a q _ _. rewrite StripFold.unit_value, (ea_mul_1 R EA). reflexivity.
  Qed.
  Lemma walk_rows : forall i, i <= M -> exists v, walk (sites i N) unit_tensor = Ok v /\ state_at i 0 v.
  Proof.
    induction i as [|i IH]; intro Hi; [exists unit_tensor; split; [reflexivity|exact start]|]. destruct IH as [v [V1 V2]]; [lia|].
    destruct (walk_row i Hi v V2 N (le_n N)) as [w [W1 W2]]. exists w. split; [|now apply row_state].
    unfold walk in *. unfold sites in *. rewrite seq_S, flat_map_app, foldM_app, V1. cbn [bind flat_map Nat.add]. rewrite app_nil_r. exact W1.
  Qed.

  (** ** the end *)
  Lemma last_down : forall k, open_down M dim M 0 k = None.
  Proof. intro k. unfold open_down. cbn [Nat.ltb Nat.leb]. destruct M as [|m]; [reflexivity|]. unfold down_slot. now rewrite (proj2 (Nat.ltb_ge (1 + m) (S m))) by lia. Qed.
  Lemma last_slot : forall n, slot (edges_at M 0) n <> None -> exists i j, i < M /\ j < N /\ n = site_name i j.
  Proof.
    intros n H. pose proof (slot_keys _ _ H) as K. apply keys_at in K. unfold slot in H. destruct K as [[i [j [K ->]]]|[[k [Hk ->]]| ->]].
    - apply in_done in K; [|lia]. exists i, j. lia.
    - rewrite find_down, last_down in H by exact Hk. congruence.
    - rewrite find_right in H. cbn in H. congruence.
  Qed.
  Lemma site_slot : forall i j, i < M -> j < N -> slot (edges_at M 0) (site_name i j) = Some d.
  Proof. intros i j Hi Hj. unfold slot. rewrite find_site; [reflexivity|]. apply in_done; lia. Qed.
  Definition point (s : nat -> nat -> nat) : list (nat * nat) := map (fun ij => (site_name (fst ij) (snd ij), s (fst ij) (snd ij))) (sites M N).
  Lemma point_at : forall s i j, i < M -> j < N -> index (point s) (site_name i j) = s i j.
  Proof.
    intros s i j Hi Hj. unfold index, point. pose proof (find_tagged (nat * nat) nat (fun ij => site_name (fst ij) (snd ij)) (fun ij => s (fst ij) (snd ij)) (sites M N) (i, j)) as F. cbn [fst snd] in F. rewrite F; [reflexivity| |].
    - intros [x y] _ Q. apply site_name_inj in Q. destruct Q; now subst.
    - apply in_all_sites. auto.
  Qed.
  Lemma point_in : forall s, spins_within M N d s -> in_slots (edges_at M 0) (point s).
  Proof.
    intros s Hs n. destruct (slot (edges_at M 0) n) as [x|] eqn:Q; [|now right]. left. destruct (last_slot n) as [i [j [Hi [Hj ->]]]]; [congruence|]. rewrite site_slot in Q by assumption. injection Q as <-.
    rewrite point_at by assumption. now apply Hs.
  Qed.
  Lemma point_matches : forall s q, matches M N dim M 0 (point s) q.
  Proof. intros s q. split; [intros k Hk H; now rewrite last_down in H|intro H; cbn in H; congruence]. Qed.
  Lemma amp_wave : forall s, amp N dim T M 0 (spins_at (point s)) (fun _ => 0) = wave M N dim T s.
  Proof.
    intro s. unfold amp, wave, psi, network_sum. assert (Hd : done N M 0 = sites M N) by (unfold done; cbn; now rewrite app_nil_r). 
    rewrite (Over_perm EA bond_eqb bond_spec dim (flat_map new_bonds (done N M 0)) (bonds M N)).
    - apply (Over_ext bond_eqb bond_spec). intros q _. unfold part. rewrite Hd. f_equal. apply map_ext_in. intros [i j] H. apply in_all_sites in H. destruct H as [Hi Hj]. unfold site_factor, at_spins, spins_at.
      rewrite point_at by assumption. now rewrite Nat2Z.id.
    - apply (NoDup_new dim), NoDup_done. lia.
    - rewrite Hd. exact (new_bonds_all M N dim).
    - apply part_ext.
  Qed.
  Theorem walk_ok : exists v, walk (sites M N) unit_tensor = Ok v /\ exact_state M N d v /\ (not_zero M N d (wave M N dim T) -> proportional M N d (wave M N dim T) v).
  Proof.
    destruct (walk_rows M (le_n M)) as [v [V1 [V2 V3]]]. exists v. split; [exact V1|]. split.
    - constructor; [apply (h_wf _ _ V2)|apply (h_block _ _ V2)| |].
      + intros i j Hi Hj. rewrite (h_dim _ _ V2). now apply site_slot.
      + intros k Hk. apply last_slot. now apply (has_in v).
    - intros [s0 [Hs0 Hn]]. destruct V3 as [[c I0]|D].
      + exists c. intros s Hs. rewrite <- amp_wave. symmetry. apply I0; [now apply point_in|apply point_matches].
      + exfalso. apply Hn. rewrite <- amp_wave. apply D; [now apply point_in|apply point_matches].
  Qed.
End Main.

Section Vectors.
  Context {R V : Type} {RR : Scalar R}.
  Notation tens := (tensor unit R).
  Hypotheses (EA : exact_arithmetic R) (MA : associative_product R) (MD : distributive_product R) (DV : dividing R).
  Variables (E : @env R) (J : internal).
  Hypothesis HJ : NoDup [i_contract_0 J; i_contract_1 J; i_contract_2 J].
  Variables (vzero : V) (greater : V -> V -> bool) (of_real : V -> R) (abs : R -> V).
  Hypothesis HV : modulus vzero greater of_real abs.

  Theorem exact_vector_ok : forall M N d dim (T : nat -> nat -> tens), (forall i j, i < M -> j < N -> fits_spin M N dim d i j (T i j)) ->
    exists v, exact_vector E J vzero greater of_real abs M N (lattice_of M N T) = Ok v /\ exact_state M N d v /\
      (not_zero M N d (wave M N dim T) -> proportional M N d (wave M N dim T) v).
  Proof.
    intros M N d dim T HT.
    exact (walk_ok EA MA MD DV E J HJ vzero greater of_real abs HV M N d dim T HT (fun ij => cell (lattice_of M N T) (fst ij) (snd ij)) (fun i j Hi Hj => cell_table _ M N T i j Hi Hj)).
  Qed.
End Vectors.
