(** Reading what was written. *)
From Coq Require Import List Bool Arith ZArith Lia.
From Verif Require Import Base.Outcome Base.SMap Model.Symmetry Model.Edge Model.Core Model.Names Model.Binary Spec.Binary Spec.Blocks.
From Verif Require Import Proof.SymmetryFacts Proof.LoopFacts Proof.CoreFacts Proof.ElemFacts.
Import ListNotations.

Lemma little_length : forall n z, length (little n z) = n.
Proof. induction n; intro z; cbn [little length]; auto. Qed.
Lemma unlittle_little : forall n z, unlittle (little n z) = (z mod 2 ^ (8 * Z.of_nat n))%Z.
Proof.
  induction n as [|n IH]; intro z.
  - cbn. now rewrite Z.mod_1_r.
  - cbn [little unlittle]. rewrite IH. replace (8 * Z.of_nat (S n))%Z with (8 + 8 * Z.of_nat n)%Z by lia.
    rewrite Z.pow_add_r by lia. change (2 ^ 8)%Z with 256%Z.
    rewrite (Z.rem_mul_r z 256 (2 ^ (8 * Z.of_nat n))) by lia. reflexivity.
Qed.
Lemma signed_little : forall n z, (0 < n)%nat -> (- 2 ^ (8 * Z.of_nat n - 1) <= z < 2 ^ (8 * Z.of_nat n - 1))%Z -> signed n (little n z) = z.
Proof.
  intros n z Hn Hz. unfold signed. rewrite unlittle_little.
  assert (E : (2 ^ (8 * Z.of_nat n) = 2 * 2 ^ (8 * Z.of_nat n - 1))%Z) by (rewrite <- Z.pow_succ_r by lia; f_equal; lia).
  set (h := (2 ^ (8 * Z.of_nat n - 1))%Z) in *. rewrite E.
  destruct (Z.ltb_spec z 0) as [H|H].
  - replace (z mod (2 * h))%Z with (z + 2 * h)%Z; [|apply Z.mod_unique_pos with (-1)%Z; lia].
    destruct (Z.leb_spec h (z + 2 * h)); lia.
  - rewrite Z.mod_small by lia. destruct (Z.leb_spec h z); lia.
Qed.

#[global] Instance PlainLaws_size : PlainLaws nat fits.
Proof.
  split; [intros; apply little_length|]. intros pad n H. cbn [from_bytes to_bytes Plain_size]. rewrite unlittle_little.
  change (2 ^ (8 * Z.of_nat 8))%Z with (2 ^ 64)%Z. unfold fits in H. rewrite Z.mod_small by lia. now rewrite Nat2Z.id.
Qed.
#[global] Instance PlainLaws_bool : PlainLaws bool (fun _ => True).
Proof. split; [reflexivity|]. now intros pad [] _. Qed.
#[global] Instance PlainLaws_unit : PlainLaws unit (fun _ => True).
Proof. split; [reflexivity|]. now intros pad [] _. Qed.
#[global] Instance PlainLaws_int : PlainLaws Z fits_int.
Proof.
  split; [intros; apply little_length|]. intros pad z H. cbn [from_bytes to_bytes Plain_int]. f_equal. apply signed_little; [lia|]. exact H.
Qed.
Lemma fermi_ext : forall a b : fermi16, fermi_z a = fermi_z b -> a = b.
Proof. intros [a Ha] [b Hb] H. cbn in H. subst b. f_equal. apply Eqdep_dec.UIP_dec. decide equality. Qed.
Lemma fermi_range : forall f : fermi16, (- 2 ^ 15 <= fermi_z f < 2 ^ 15)%Z.
Proof. intros [f H]. cbn. unfold int16_ok in H. apply andb_true_iff in H as [H1 H2]. apply Z.leb_le in H1, H2. lia. Qed.
Lemma to_fermi_z : forall f : fermi16, to_fermi (fermi_z f) = f.
Proof.
  intro f. apply fermi_ext. unfold to_fermi. cbn. unfold wrap16. pose proof (fermi_range f). rewrite Z.mod_small by lia. lia.
Qed.
#[global] Instance PlainLaws_fermi : PlainLaws fermi16 (fun _ => True).
Proof.
  split; [intros; apply little_length|]. intros pad f _. cbn [from_bytes to_bytes Plain_fermi]. f_equal.
  rewrite signed_little; [apply to_fermi_z|lia|apply fermi_range].
Qed.
#[global] Instance PlainLaws_fermi_z2 : PlainLaws (fermi16 * bool) (fun _ => True).
Proof.
  split; [reflexivity|]. intros pad [f z] _. pose proof (from_to_bytes pad f I) as H. pose proof (from_to_bytes pad z I) as H'.
  cbn [from_bytes to_bytes Plain_fermi_z2 fst snd].
  change (firstn 2 (to_bytes pad f ++ to_bytes pad z ++ [pad])) with (to_bytes pad f).
  change (firstn 1 (skipn 2 (to_bytes pad f ++ to_bytes pad z ++ [pad]))) with (to_bytes pad z). now rewrite H, H'.
Qed.
#[global] Instance PlainLaws_fermi_u1 : PlainLaws (fermi16 * Z) (fun x => fits_int (snd x)).
Proof.
  split; [reflexivity|]. intros pad [f z] Hz. pose proof (from_to_bytes pad f I) as H. pose proof (from_to_bytes pad z Hz) as H'.
  cbn [from_bytes to_bytes Plain_fermi_u1 fst snd].
  change (firstn 2 (to_bytes pad f ++ [pad; pad] ++ to_bytes pad z)) with (to_bytes pad f).
  change (skipn 4 (to_bytes pad f ++ [pad; pad] ++ to_bytes pad z)) with (to_bytes pad z). now rewrite H, H'.
Qed.

Lemma known_map_Some : forall l, known (map Some l) = Some l.
Proof. induction l as [|b l IH]; cbn; [reflexivity|now rewrite IH]. Qed.
Lemma read_exact : forall old l rest, length old = length l -> read old (l ++ rest, true) = (map Some l, (rest, true)).
Proof.
  intros old l rest H. unfold read. cbn [negb]. rewrite H, app_length. destruct (Nat.leb_spec (length l) (length l + length rest)); [|lia].
  rewrite firstn_app, skipn_app, Nat.sub_diag, firstn_all, skipn_all. cbn. now rewrite app_nil_r.
Qed.

Lemma reads_bind : forall {A B} (f : reader A) (g : A -> reader B) b1 b2 a c,
  reads f b1 a -> reads (g a) b2 c -> reads (fun s => bind (f s) (fun r => g (fst r) (snd r))) (b1 ++ b2) c.
Proof. intros A B f g b1 b2 a c H1 H2 rest. cbv beta. rewrite <- app_assoc, H1. cbn. apply H2. Qed.

Section Plain.
  Context {A : Type} {PA : Plain A} {ok : A -> Prop} {PL : PlainLaws A ok}.
  Lemma read_plain_back : forall pad old a, length old = size_of -> ok a -> reads (read_plain old) (to_bytes pad a) a.
  Proof.
    intros pad old a Ho Ha rest. unfold read_plain. rewrite read_exact; [|now rewrite to_bytes_length].
    unfold value_of_memory. rewrite known_map_Some, from_to_bytes by auto. reflexivity.
  Qed.
  Lemma holding_length : forall pad (a : A), length (holding pad a) = size_of.
  Proof. intros. unfold holding. rewrite map_length. apply to_bytes_length. Qed.
End Plain.
Lemma read_count_back : forall pad n, fits n -> reads read_count (write_count pad n) n.
Proof. intros pad n H. apply (read_plain_back pad); [reflexivity|exact H]. Qed.

Lemma cut_pieces_concat : forall {A B} (f : A -> list B) w l, (forall a, In a l -> length (f a) = w) -> cut_pieces (length l) w (concat (map f l)) = map f l.
Proof.
  induction l as [|a l IH]; intros H; [reflexivity|]. cbn [length cut_pieces map concat]. pose proof (H a (or_introl eq_refl)) as E.
  rewrite firstn_app, skipn_app, E, Nat.sub_diag, <- E, firstn_all, skipn_all. cbn [firstn skipn app]. rewrite app_nil_r, E.
  f_equal. apply IH. intros. apply H. now right.
Qed.
Lemma concat_length_same : forall {A B} (f : A -> list B) w l, (forall a, In a l -> length (f a) = w) -> length (concat (map f l)) = length l * w.
Proof. induction l as [|a l IH]; intros H; [reflexivity|]. cbn [map concat length Nat.mul]. rewrite app_length, H, IH; auto. - intros. apply H. now right. - now left. Qed.
Lemma map_Some_concat : forall {A B} (f : A -> list B) l, map (@Some B) (concat (map f l)) = concat (map (fun a => map Some (f a)) l).
Proof. intros. now rewrite concat_map, map_map. Qed.
Lemma mapM_map_ok : forall {A B C} (f : B -> res C) (g : A -> B) (h : A -> C) l, (forall a, In a l -> f (g a) = Ok (h a)) -> mapM f (map g l) = Ok (map h l).
Proof.
  induction l as [|a l IH]; intros H; [reflexivity|]. cbn [map mapM]. rewrite (H a (or_introl eq_refl)). cbn [bind]. rewrite IH; [reflexivity|].
  intros. apply H. now right.
Qed.

Lemma mapM_ok : forall {A C} (f : A -> res C) (h : A -> C) l, (forall a, In a l -> f a = Ok (h a)) -> mapM f l = Ok (map h l).
Proof. intros A C f h l H. rewrite <- (map_id l) at 1. now apply (mapM_map_ok f (fun a => a)). Qed.

Section Vector.
  Context {A : Type} {PA : Plain A} {ok : A -> Prop} {PL : PlainLaws A ok}.
  Lemma read_vector_back : forall pad initial (l : list A), fits (length l) -> (forall a, In a l -> ok a) -> reads (read_vector pad initial) (write_vector pad l) l.
  Proof.
    intros pad initial l Hl Ha rest. unfold read_vector, write_vector. rewrite <- app_assoc, (read_count_back pad) by auto. cbn [bind].
    rewrite read_exact.
    - rewrite map_Some_concat, cut_pieces_concat by (intros; rewrite map_length; apply to_bytes_length).
      rewrite (mapM_map_ok _ _ (fun a => a)); [cbn [bind]; now rewrite map_id|].
      intros a H. unfold value_of_memory. rewrite known_map_Some, from_to_bytes by auto. reflexivity.
    - rewrite (concat_length_same _ size_of) by (intros; apply to_bytes_length).
      replace (repeat (holding pad initial) (length l)) with (map (fun _ : A => holding pad initial) l)
        by (clear; induction l; cbn; congruence).
      rewrite (concat_length_same _ size_of); [reflexivity|]. intros. apply holding_length.
  Qed.
End Vector.

Lemma repeatM_ok : forall {A St} (f : St -> res St) (step : A -> St -> St) (inv : list A -> St -> Prop) l st,
  inv l st -> (forall a l st, inv (a :: l) st -> f st = Ok (step a st) /\ inv l (step a st)) ->
  repeatM (length l) f st = Ok (fold_left (fun st a => step a st) l st).
Proof.
  intros A St f step inv l. induction l as [|a l IH]; intros st H0 H; [reflexivity|]. cbn [length repeatM fold_left].
  destruct (H a l st H0) as [E H1]. rewrite E. cbn [bind]. apply IH; auto.
Qed.

Section Lists.
  Context {A B : Type}.
  Lemma read_items_back : forall (rd : reader B) (w : A -> bytes) (g : A -> B) l, (forall a, In a l -> reads rd (w a) (g a)) ->
    forall acc rest, repeatM (length l) (fun st => bind (rd (snd st)) (fun r => Ok (fst st ++ [fst r], snd r))) (acc, (concat (map w l) ++ rest, true))
      = Ok (acc ++ map g l, (rest, true)).
  Proof.
    induction l as [|a l IH]; intros H acc rest; cbn [length repeatM map concat].
    - now rewrite app_nil_r.
    - cbn [snd fst]. rewrite <- app_assoc, (H a (or_introl eq_refl)). cbn [bind fst snd]. rewrite IH by (intros; apply H; now right).
      now rewrite <- app_assoc.
  Qed.
  Lemma read_list_back : forall pad (rd : reader B) (w : A -> bytes) (g : A -> B) l, fits (length l) -> (forall a, In a l -> reads rd (w a) (g a)) ->
    reads (read_list rd) (write_count pad (length l) ++ concat (map w l)) (map g l).
  Proof.
    intros pad rd w g l Hl H rest. unfold read_list. rewrite <- app_assoc, (read_count_back pad) by auto. cbn [bind fst snd].
    now rewrite (read_items_back rd w g) by auto.
  Qed.
End Lists.

Section Maps.
  Context {K V : Type} {OK : Ord K} {OL : OrdLaws K}.
  Lemma read_entries_back : forall (rk : reader K) (rv : option V -> reader V) (wk : K -> bytes) (wv : V -> bytes) l,
    (forall k v, In (k, v) l -> reads rk (wk k) k /\ reads (rv None) (wv v) v) ->
    forall acc rest, msorted (acc ++ l) ->
    repeatM (length l) (fun st => bind (rk (snd st)) (fun ks => bind (rv (mfind (fst ks) (fst st)) (snd ks)) (fun vs => Ok (mset (fst ks) (fst vs) (fst st), snd vs))))
      (acc, (concat (map (fun kv => wk (fst kv) ++ wv (snd kv)) l) ++ rest, true)) = Ok (acc ++ l, (rest, true)).
  Proof.
    induction l as [|[k v] l IH]; intros H acc rest Hs; cbn [length repeatM map concat].
    - now rewrite app_nil_r.
    - cbn [snd fst]. rewrite <- !app_assoc. destruct (H k v (or_introl eq_refl)) as [Hk Hv]. rewrite Hk. cbn [bind fst snd].
      assert (Hn : ~ In k (map fst acc)).
      { pose proof (msorted_nodup _ Hs) as Hd. rewrite map_app in Hd. cbn [map fst] in Hd. apply NoDup_remove_2 in Hd. intro. apply Hd. apply in_or_app. auto. }
      destruct (mfind k acc) eqn:Ef; [exfalso; apply Hn; eapply mfind_In_key; eauto|]. rewrite Hv. cbn [bind fst snd].
      rewrite mset_app_max.
      + rewrite IH; [now rewrite <- app_assoc| |now rewrite <- app_assoc]. intros. apply H. now right.
      + (* every key of acc is below k *)
        clear - Hs OL. unfold msorted in Hs. rewrite map_app in Hs. cbn [map fst] in Hs.
        intros k' Hk'. induction acc as [|[k0 v0] acc IH]; cbn in *; [easy|].
        inversion Hs as [|? ? Hs1 Hs2]; subst. destruct Hk' as [<-|Hk']; [|now apply IH].
        rewrite Forall_forall in Hs2. apply Hs2. apply in_or_app. right. now left.
  Qed.
  Lemma read_map_back : forall pad (rk : reader K) (rv : option V -> reader V) (wk : K -> bytes) (wv : V -> bytes) m, fits (length m) -> msorted m ->
    (forall k v, In (k, v) m -> reads rk (wk k) k /\ reads (rv None) (wv v) v) ->
    reads (read_map rk rv) (write_map pad wk wv m) m.
  Proof.
    intros pad rk rv wk wv m Hm Hs H rest. unfold read_map, write_map. rewrite <- app_assoc, (read_count_back pad) by auto. cbn [bind fst snd].
    rewrite (read_entries_back rk rv wk wv) by auto. reflexivity.
  Qed.
End Maps.
