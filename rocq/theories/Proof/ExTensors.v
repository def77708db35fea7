(** Concrete tensors used by the examples beside the theorems. *)
From Coq Require Import String List Bool Arith ZArith.
From Verif Require Import Base.Outcome Base.SMap Model.Symmetry Model.Edge Model.Core Model.EdgeOperator
  Proof.SymmetryFacts Proof.CoreFacts Proof.ConstructFacts Proof.ElemFacts Proof.ScalarZ.
Import ListNotations.

Definition exE : @env Z := mkEnv 77%Z None false (fun _ => false).

(** fill a tensor with the numbers from k on, block after block *)
Fixpoint number {S : Type} (k : Z) (bs : list (list S * list Z)) : list (list S * list Z) :=
  match bs with
  | [] => []
  | (key, b) :: bs' => (key, map (fun i => (k + Z.of_nat i)%Z) (seq 0 (length b))) :: number (k + Z.of_nat (length b))%Z bs'
  end.
Definition range_tensor {S : Type} {SS : Sym S} (names : list nat) (edges : list (edge S)) : tensor S Z :=
  match make_tensor 0%Z names edges false with
  | Ok t => mkTensor (t_names t) (mkCore (t_edges t) (number 1%Z (t_blocks t)))
  | _ => mkTensor [] (mkCore [] [])
  end.

Lemma number_shape : forall (S : Type) (bs : list (list S * list Z)) k,
  map (fun kb => (fst kb, length (snd kb))) (number k bs) = map (fun kb => (fst kb, length (snd kb))) bs.
Proof.
  intros S bs. induction bs as [|[key b] bs IH]; intro k; [reflexivity|]. cbn [number map fst snd].
  now rewrite map_length, seq_length, IH.
Qed.
Lemma number_keys : forall (S : Type) (bs : list (list S * list Z)) k, map fst (number k bs) = map fst bs.
Proof. intros S bs. induction bs as [|[key b] bs IH]; intro k; [reflexivity|]. cbn [number map fst]. now rewrite IH. Qed.

(** range_tensor is well formed when a boolean check succeeds *)
Section Check.
  Context {S : Type} {SS : Sym S} {SL : SymLaws S}.
  Fixpoint sortedb (m : list (S * nat)) : bool :=
    match m with
    | [] => true
    | a :: m' => forallb (fun b => ltb (fst a) (fst b)) m' && sortedb m'
    end.
  Definition range_ok (names : list nat) (edges : list (edge S)) : bool :=
    forallb (fun e => sortedb (emap e)) edges && negb (has_dup names) && Nat.eqb (length names) (length edges).
  Lemma sortedb_ok : forall m, sortedb m = true -> msorted m.
  Proof.
    induction m as [|a m IH]; intro H; [constructor|]. cbn [sortedb] in H. apply andb_true_iff in H as [H1 H2].
    constructor; [now apply IH|]. apply Forall_forall. intros k Hk. change (In k (map fst m)) in Hk.
    apply in_map_iff in Hk as [b [<- Hb]]. rewrite forallb_forall in H1. specialize (H1 b Hb).
    unfold ltb in H1. destruct (cmp (fst a) (fst b)) eqn:E; try discriminate. reflexivity.
  Qed.
  Lemma range_wf : forall names edges, range_ok names edges = true -> wf_tensor (range_tensor names edges).
  Proof.
    intros names edges H. unfold range_ok in H. apply andb_true_iff in H as [H H3]. apply andb_true_iff in H as [H1 H2].
    apply Nat.eqb_eq in H3. apply negb_true_iff in H2.
    assert (Hn : NoDup names). { clear - H2. induction names as [|n l IH]; [constructor|]. simpl in H2. apply orb_false_iff in H2 as [A B].
      constructor; auto. intro Hin. rewrite <- not_true_iff_false in A. apply A. apply existsb_exists. exists n. split; auto. apply Nat.eqb_refl. }
    assert (Hs : sorted_maps (maps_of edges)).
    { unfold sorted_maps, maps_of. rewrite Forall_map. apply Forall_forall. intros e He. apply sortedb_ok. rewrite forallb_forall in H1. auto. }
    destruct (make_tensor_ok 0%Z names edges false Hs Hn H3) as [t [E [W _]]]. unfold range_tensor. rewrite E.
    destruct W as [[Wm Wsh Wp] Wn Wr]. constructor; [constructor|..]; cbn [t_core t_names c_edges c_blocks]; auto.
    - unfold shape. rewrite number_shape. exact Wsh.
    - intros i e s He Hi. rewrite number_keys. now apply (Wp i e s).
  Qed.
End Check.
