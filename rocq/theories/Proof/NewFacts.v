(** New lattices are lattices. *)
From Coq Require Import List Bool Arith ZArith Lia.
From Verif Require Import Base.Outcome Base.SMap Model.Symmetry Model.Edge Model.Core Model.Elementwise Model.Auxiliaries Model.Spins Model.SimpleTensor Model.Exact Model.NetworkNew
  Spec.Blocks Spec.Fuse Spec.Relabel Spec.Contract Spec.Plain Spec.Grid Spec.SquareLattice Spec.SpinLattice Spec.ExactState Spec.WeightedLattice Proof.SymmetryFacts Proof.LoopFacts Proof.CoreFacts Proof.ConstructFacts Proof.ElemFacts Proof.ElementwiseFacts Proof.WholeFacts
  Proof.PlainFacts Proof.PlainTools Proof.PlainElem Proof.SpinFacts Proof.GridSum Proof.SumBonds Proof.LineTensor Proof.LatticeAmplitude Proof.ExactVector Proof.ExactApply.
From Verif Require Model.SimpleUpdate.
Import ListNotations.

Section New.
  Context {R V St : Type} {RR : Scalar R}.
  Notation tens := (tensor unit R).
  Variables (vzero : V) (greater : V -> V -> bool) (of_real : V -> R) (abs : R -> V) (junk : R) (g : St -> R * St).

  Lemma make_plain : forall legs : list (nat * nat), NoDup (map fst legs) ->
    exists t : tens, make_tensor junk (map fst legs) (map (fun nd => plain_edge (snd nd)) legs) false = Ok t /\ has t (map (fun nd => (fst nd, Some (snd nd))) legs).
  Proof.
    intros legs ND. set (es := map (fun nd => plain_edge (snd nd)) legs).
    assert (SM : sorted_maps (maps_of es)).
    { unfold sorted_maps, maps_of, es. rewrite map_map. apply Forall_forall. intros m Hm. apply in_map_iff in Hm as [x [<- _]]. cbn. repeat constructor. }
    destruct (make_tensor_ok junk (map fst legs) es false SM ND) as [t [H1 [H2 [H3 [H4 H5]]]]]; [unfold es; now rewrite !map_length|]. exists t. split; [exact H1|].
    assert (KEY : In (repeat tt (length legs)) (map fst (t_blocks t))).
    { rewrite H4, junk_keys. apply in_map_iff. exists (repeat tt (length legs), prod (map snd legs)). split; [reflexivity|]. apply in_block_list. split.
      - apply dims_of_choice; [exact SM|]. exists (map snd legs). split; [|reflexivity]. unfold maps_of, es. rewrite map_map. cbn [emap plain_edge]. clear. induction legs as [|[n d] l IH]; [reflexivity|].
        cbn [map length repeat dims_of mfind snd]. change (eqb tt tt) with true. cbn iota. now rewrite IH.
      - destruct (ssum (repeat tt (length legs))). reflexivity. }
    assert (EQ : t_edges t = es).
    { rewrite H5. cbn [andb is_fermi]. apply prune_id. intros j e s He Hs. cbn [Nat.add]. apply used_in_true. exists (repeat tt (length legs)). split; [now rewrite H4 in KEY|].
      destruct s. apply nth_error_repeat. unfold es in He. assert (j < length (map (fun nd => plain_edge (snd nd)) legs)) by (apply nth_error_Some; congruence). now rewrite map_length in *. }
    constructor; [exact H2|intro Q; rewrite Q in KEY; exact KEY|]. intro n. unfold dimension, legs_of. rewrite H3, EQ. unfold slot, es. clear. induction legs as [|[m d] l IH]; [reflexivity|].
    cbn [map combine mfind fst snd]. destruct (eqb n m); [reflexivity|]. exact IH.
  Qed.
  Lemma set_has : forall (t : tens) K st, has t K -> has (set_tensor g st t) K.
  Proof.
    intros t K st H. destruct (set_stored St g st t) as [_ SH]. constructor.
    - exact (reshape_wf t _ (h_wf _ _ H) SH).
    - intro Q. rewrite Q in SH. apply (h_block _ _ H). destruct (t_blocks t); [reflexivity|discriminate].
    - apply (h_dim _ _ H).
  Qed.
  Lemma random_has : forall legs st, NoDup (map fst legs) -> exists t st', random_tensor vzero greater of_real abs junk g legs st = Ok (t, st') /\ has t (map (fun nd => (fst nd, Some (snd nd))) legs).
  Proof.
    intros legs st ND. destruct (make_plain legs ND) as [t [H1 H2]]. unfold random_tensor. rewrite H1. cbn [bind]. eexists. eexists. split; [reflexivity|].
    unfold normal. now apply transform_has, set_has.
  Qed.
  Lemma new_site_has : forall M N D d i j st, i < M -> j < N -> exists t st', random_tensor vzero greater of_real abs junk g (new_legs M N D d i j) st = Ok (t, st') /\ fits_spin M N (fun _ => D) d i j t.
  Proof.
    intros M N D d i j st Hi Hj. destruct (random_has (new_legs M N D d i j) st) as [t [st' [H1 H2]]].
    { apply nodupb_ok. unfold new_legs. destruct (negb (Nat.eqb i 0)), (negb (Nat.eqb j 0)), (negb (Nat.eqb i (M - 1))), (negb (Nat.eqb j (N - 1))); reflexivity. }
    exists t, st'. split; [exact H1|]. apply fits_spin_has. apply (has_ext t _ _ H2). intro n. clear H1 H2.
    unfold new_legs, spin_slots, site_slots, up_slot, down_slot, left_slot, right_slot.
    assert (A : negb (Nat.eqb i (M - 1)) = (1 + i <? M)) by (destruct (Nat.eqb_spec i (M - 1)), (Nat.ltb_spec (1 + i) M); try reflexivity; lia).
    assert (B : negb (Nat.eqb j (N - 1)) = (1 + j <? N)) by (destruct (Nat.eqb_spec j (N - 1)), (Nat.ltb_spec (1 + j) N); try reflexivity; lia).
    rewrite A, B. clear.
    assert (X : forall m, eqb n m = true -> n = m) by (intros m; apply eqb_eq).
    unfold slot.
    destruct i as [|i], j as [|j]; cbn [Nat.eqb negb app map fst snd]; destruct (1 + _ <? M), (1 + _ <? N); cbn [app map fst snd mfind];
      repeat match goal with |- context [eqb n ?m] => destruct (eqb n m) eqn:?Q end; try reflexivity;
      repeat match goal with H : eqb n _ = true |- _ => apply X in H; subst n end; discriminate.
  Qed.
  Lemma new_row_ok : forall M N D d i js st, i < M -> (forall j, In j js -> j < N) ->
    exists ts st', new_row vzero greater of_real abs junk g M N D d i js st = Ok (ts, st') /\ Forall2 (fun j t => fits_spin M N (fun _ => D) d i j t) js ts.
  Proof.
    intros M N D d i js. induction js as [|j js IH]; intros st Hi Hj; [exists [], st; split; [reflexivity|constructor]|].
    destruct (new_site_has M N D d i j st Hi (Hj j (or_introl eq_refl))) as [t [st1 [H1 H2]]].
    destruct (IH st1 Hi (fun k Hk => Hj k (or_intror Hk))) as [ts [st2 [H3 H4]]]. cbn [new_row]. rewrite H1. cbn [bind snd fst]. rewrite H3. cbn [bind snd fst].
    exists (t :: ts), st2. split; [reflexivity|now constructor].
  Qed.
  Lemma new_rows_ok : forall M N D d is st, (forall i, In i is -> i < M) ->
    exists rows st', new_rows vzero greater of_real abs junk g M N D d is st = Ok (rows, st') /\ Forall2 (fun i row => Forall2 (fun j t => fits_spin M N (fun _ => D) d i j t) (seq 0 N) row) is rows.
  Proof.
    intros M N D d is. induction is as [|i is IH]; intros st Hi; [exists [], st; split; [reflexivity|constructor]|].
    destruct (new_row_ok M N D d i (seq 0 N) st (Hi i (or_introl eq_refl))) as [ts [st1 [H1 H2]]]; [intros j Hj; apply in_seq in Hj; lia|].
    destruct (IH st1 (fun k Hk => Hi k (or_intror Hk))) as [rows [st2 [H3 H4]]]. cbn [new_rows]. rewrite H1. cbn [bind snd fst]. rewrite H3. cbn [bind snd fst].
    exists (ts :: rows), st2. split; [reflexivity|now constructor].
  Qed.
  Lemma indexed : forall {A} (P : nat -> A -> Prop) l n k (a : A), Forall2 P (seq k n) l -> l = map (fun i => nth (i - k) l a) (seq k n) /\ forall i, i < n -> P (k + i) (nth i l a).
  Proof.
    intros A P l n k a. revert l k. induction n as [|n IH]; intros l k H; cbn [seq] in H; inversion H as [|? x ? l' H1 H2]; subst; [split; [reflexivity|intros; lia]|].
    destruct (IH l' (S k) H2) as [I1 I2]. split.
    - cbn [seq map]. rewrite Nat.sub_diag. cbn [nth]. f_equal. rewrite I1 at 1. apply map_ext_in. intros i Hi. apply in_seq in Hi. replace (i - k) with (S (i - S k)) by lia. reflexivity.
    - intros [|i] Hi; [now rewrite Nat.add_0_r|]. cbn [nth]. replace (k + S i) with (S k + i) by lia. apply I2. lia.
  Qed.
  Theorem new_lattice_ok : forall M N D d st, exists T st', new_lattice vzero greater of_real abs junk g M N D d st = Ok (lattice_of M N T, st') /\ forall i j, i < M -> j < N -> fits_spin M N (fun _ => D) d i j (T i j).
  Proof.
    intros M N D d st. destruct (new_rows_ok M N D d (seq 0 M) st) as [rows [st' [H1 H2]]]; [intros i Hi; apply in_seq in Hi; lia|].
    destruct (make_plain [] (NoDup_nil _)) as [t0 _].
    destruct (indexed _ rows M 0 [] H2) as [I1 I2]. exists (fun i j => nth j (nth i rows []) t0), st'. split.
    - unfold new_lattice. rewrite H1. do 2 f_equal. unfold lattice_of. rewrite I1 at 1. apply map_ext_in. intros i Hi. apply in_seq in Hi. rewrite Nat.sub_0_r.
      destruct (indexed _ (nth i rows []) N 0 t0 (I2 i ltac:(lia))) as [J1 _]. rewrite J1 at 1. apply map_ext. intro j. now rewrite Nat.sub_0_r.
    - intros i j Hi Hj. destruct (indexed _ (nth i rows []) N 0 t0 (I2 i Hi)) as [_ J2]. exact (J2 j Hj).
  Qed.
  Theorem new_simple_ok : forall M N D d st, exists T x st', new_simple vzero greater of_real abs junk g M N D d st = Ok (x, st') /\ simple_lattice M N d (fun _ => D) T x /\ SimpleUpdate.environment x = [].
  Proof.
    intros M N D d st. destruct (new_lattice_ok M N D d st) as [T [st' [H1 H2]]]. unfold new_simple. rewrite H1. cbn [bind fst snd].
    exists T, (SimpleUpdate.mkNetwork (map (map Ok) (lattice_of M N T)) []), st'. split; [reflexivity|]. split; [|reflexivity]. constructor; [reflexivity|exact H2|]. cbn. intros k s Q. discriminate Q.
  Qed.
  Theorem new_exact_ok : forall M N d st, exists v st', new_exact vzero greater of_real abs junk g M N d st = Ok (v, st') /\ exact_state M N d v.
  Proof.
    intros M N d st. unfold new_exact. destruct (random_has (map (fun ij => (site_name (fst ij) (snd ij), d)) (all_sites M N)) st) as [t [st' [H1 H2]]].
    { rewrite map_map. cbn [fst]. apply FinFun.Injective_map_NoDup; [|exact (NoDup_sites M N)]. intros [a b] [a' b'] Q. cbn [fst snd] in Q. apply site_name_inj in Q as [-> ->]. reflexivity. }
    exists t, st'. split; [exact H1|]. apply exact_state_has. rewrite map_map in H2. exact H2.
  Qed.
End New.
