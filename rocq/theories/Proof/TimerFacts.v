From Coq Require Import List Arith ZArith Lia.
From Verif Require Import Base.Outcome Model.Timer Spec.Timing.
Import ListNotations.

Lemma zsum_app : forall l1 l2, zsum (l1 ++ l2) = (zsum l1 + zsum l2)%Z.
Proof.
  unfold zsum. induction l1 as [|x l1 IH]; intro l2; [reflexivity|]. cbn [app fold_right]. rewrite IH. lia.
Qed.
Lemma sum_of_app : forall f t l1 l2, sum_of f t (l1 ++ l2) = (sum_of f t l1 + sum_of f t l2)%Z.
Proof. intros. unfold sum_of. now rewrite filter_app, map_app, zsum_app. Qed.
Lemma sum_of_cons : forall f t s l, sum_of f t (s :: l) = ((if Nat.eqb (timer_of s) t then f s else 0) + sum_of f t l)%Z.
Proof. intros. unfold sum_of. cbn [filter]. destruct (Nat.eqb (timer_of s) t); cbn [map zsum fold_right]; unfold zsum; lia. Qed.

(** what a nested history does to the state *)
Definition leads (es : list event) (d : Z) (l : list section) : Prop :=
  forall u a c rest f g, exists f' g',
    run_timers (mkTimers ((u, a, c) :: rest) f g) es = Ok (mkTimers ((u, a, (c + d)%Z) :: rest) f' g') /\
    forall t, f' t = (f t + sum_of duration t l)%Z /\ g' t = (g t + sum_of own_time t l)%Z.

Lemma leads_nil : leads [] 0 [].
Proof. intros u a c rest f g. exists f, g. cbn. rewrite Z.add_0_r. split; [reflexivity|]. intro t. unfold sum_of. cbn. lia. Qed.
Lemma leads_app : forall e1 e2 d1 d2 l1 l2, leads e1 d1 l1 -> leads e2 d2 l2 -> leads (e1 ++ e2) (d1 + d2) (l1 ++ l2).
Proof.
  intros e1 e2 d1 d2 l1 l2 H1 H2 u a c rest f g. destruct (H1 u a c rest f g) as [f1 [g1 [E1 V1]]]. destruct (H2 u a (c + d1)%Z rest f1 g1) as [f2 [g2 [E2 V2]]].
  exists f2, g2. unfold run_timers in *. rewrite foldM_app, E1. cbn [bind]. rewrite E2. rewrite Z.add_assoc. split; [reflexivity|].
  intro t. rewrite !sum_of_app. destruct (V1 t), (V2 t). lia.
Qed.

Fixpoint section_leads (s : section) : leads (events s) (duration s) (all_sections s).
Proof.
  destruct s as [t a b inside].
  assert (HI : leads (flat_map events inside) (zsum (map duration inside)) (flat_map all_sections inside)).
  { induction inside as [|s inside IH]; [apply leads_nil|]. cbn [flat_map map zsum fold_right]. apply leads_app; [apply section_leads|apply IH]. }
  cbn [events duration all_sections]. intros u a0 c rest f g. unfold run_timers. cbn [foldM timer_step bind open_guard frames total_count self_count].
  rewrite foldM_app. destruct (HI t a 0%Z ((u, a0, c) :: rest) f g) as [f1 [g1 [E1 V1]]]. unfold run_timers in E1. unfold open_guard. cbn [frames total_count self_count]. rewrite E1.
  cbn [bind foldM timer_step close_guard frames total_count self_count].
  do 2 eexists. split; [reflexivity|]. intro w. destruct (V1 w) as [A B]. rewrite !sum_of_cons. cbn [timer_of duration own_time]. unfold add_to.
  rewrite (Nat.eqb_sym t w). destruct (Nat.eqb w t); lia.
Qed.
Lemma sections_lead : forall l, leads (flat_map events l) (zsum (map duration l)) (flat_map all_sections l).
Proof. induction l as [|s l IH]; [apply leads_nil|]. cbn [flat_map map zsum fold_right]. apply leads_app; [apply section_leads|exact IH]. Qed.

Lemma timers_account : forall start l, exists st, run_timers (start_program start) (flat_map events l) = Ok st /\
  frames st = [(0, start, zsum (map duration l))] /\
  forall t, total_count st t = sum_of duration t (flat_map all_sections l) /\ self_count st t = sum_of own_time t (flat_map all_sections l).
Proof.
  intros start l. destruct (sections_lead l 0 start 0%Z [] (fun _ => 0%Z) (fun _ => 0%Z)) as [f [g [E V]]]. eexists. split; [exact E|].
  cbn [frames total_count self_count]. split; [reflexivity|]. intro t. destruct (V t). split; lia.
Qed.

(** every tick inside a top-level section belongs to exactly one self count *)
Fixpoint own_sum (s : section) : zsum (map own_time (all_sections s)) = duration s.
Proof.
  destruct s as [t a b inside]. cbn [all_sections map zsum fold_right own_time duration]. fold (zsum (map own_time (flat_map all_sections inside))).
  assert (H : zsum (map own_time (flat_map all_sections inside)) = zsum (map duration inside)).
  { induction inside as [|s inside IH]; [reflexivity|]. cbn [flat_map map]. rewrite map_app, zsum_app, own_sum. cbn [zsum fold_right]. fold (zsum (map duration inside)). now rewrite IH. }
  rewrite H. lia.
Qed.
Lemma partition_sum : forall f ts l, NoDup ts -> (forall s, In s l -> In (timer_of s) ts) -> zsum (map (fun t => sum_of f t l) ts) = zsum (map f l).
Proof.
  intros f ts l Hd. induction l as [|s l IH]; intro Hin.
  - cbn. clear. induction ts as [|t ts IHt]; [reflexivity|exact IHt].
  - cbn [map zsum fold_right]. fold (zsum (map f l)). rewrite <- IH by (intros x Hx; apply Hin; now right).
    assert (E : forall l0, map (fun t => sum_of f t (s :: l0)) ts = map (fun t => ((if Nat.eqb (timer_of s) t then f s else 0) + sum_of f t l0)%Z) ts) by (intro; apply map_ext; intro; apply sum_of_cons).
    rewrite E. specialize (Hin s (or_introl eq_refl)). clear - Hd Hin. induction ts as [|t ts IH]; [destruct Hin|]. inversion Hd; subst.
    cbn [map zsum fold_right]. fold (zsum (map (fun t => ((if Nat.eqb (timer_of s) t then f s else 0) + sum_of f t l)%Z) ts)) (zsum (map (fun t => sum_of f t l) ts)).
    destruct Hin as [->|Hin].
    + rewrite Nat.eqb_refl. assert (E : map (fun t => ((if Nat.eqb (timer_of s) t then f s else 0) + sum_of f t l)%Z) ts = map (fun t => sum_of f t l) ts).
      { apply map_ext_in. intros t Ht. destruct (Nat.eqb_spec (timer_of s) t); [subst; contradiction|]. lia. }
      rewrite E. lia.
    + destruct (Nat.eqb_spec (timer_of s) t); [subst; contradiction|]. rewrite IH by auto. lia.
Qed.
Lemma self_partition : forall start l ts st, run_timers (start_program start) (flat_map events l) = Ok st ->
  NoDup ts -> (forall s, In s (flat_map all_sections l) -> In (timer_of s) ts) ->
  zsum (map (self_count st) ts) = zsum (map duration l).
Proof.
  intros start l ts st E Hd Hin. destruct (timers_account start l) as [st' [E' [_ V]]]. rewrite E in E'. injection E' as <-.
  rewrite (map_ext _ (fun t => sum_of own_time t (flat_map all_sections l))) by (intro; apply V). rewrite partition_sum by assumption.
  clear. induction l as [|s l IH]; [reflexivity|]. cbn [flat_map map]. rewrite map_app, zsum_app, own_sum, IH. reflexivity.
Qed.
