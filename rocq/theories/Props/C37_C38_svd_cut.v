(** C37, C38: the singular values kept by a truncated SVD.  [strict_order], [descending], [prefixes], [best_selection]: Spec/Truncate.v. *)
From Coq Require Import List Bool Arith ZArith Lia.
From Verif Require Import Base.Outcome Base.SMap Model.Symmetry Model.SvdCut Spec.Truncate Proof.SymmetryFacts Proof.SvdCutFacts.
Import ListNotations.

(** ** C37.  The singular values kept are a prefix of each charge's list, as many in all as asked for, none of them smaller than one dropped;
    the two tensors are cut to the same numbers (the charges of the second being opposite). *)
Theorem C37_cut_keeps_largest :
  forall (S V : Type) (SS : Sym S) (SL : SymLaws S) (vzero : V) (greater : V -> V -> bool), strict_order greater ->
  forall (sing : list (S * list V)) n, msorted sing -> (forall s l, In (s, l) sing -> descending greater l) ->
  (forall s l x, In (s, l) sing -> In x l -> greater x vzero = true) -> n < total_dimension sing ->
  exists u v r, svd_cut vzero greater sing (Some n) = Ok (u, v, prefixes r sing) /\ best_selection greater sing n r /\
    u = map (fun sv => (fst sv, r (fst sv))) sing /\ v = of_list (map (fun sv => (sneg (fst sv), r (fst sv))) sing).
Proof. exact @svd_cut_positive. Qed.
Print Assumptions C37_cut_keeps_largest.
Theorem C37_no_cut :
  forall (S V : Type) (SS : Sym S) (vzero : V) (greater : V -> V -> bool) (sing : list (S * list V)) n, total_dimension sing <= n ->
  svd_cut vzero greater sing (Some n) = Ok ([], [], sing) /\ svd_cut vzero greater sing None = Ok ([], [], sing).
Proof. exact @svd_no_cut. Qed.
Print Assumptions C37_no_cut.
Lemma Zgt_order : strict_order Z.gtb.
Proof. constructor; intros; rewrite ?Z.gtb_ltb, ?Z.ltb_lt, ?Z.ltb_irrefl in *; lia. Qed.
Example C37_example :
  let sing := [((-1)%Z, [9; 4; 1]%Z); (0%Z, [7; 4]%Z); (2%Z, [3]%Z)] in
  strict_order Z.gtb /\ msorted sing /\ 3 < total_dimension sing /\
  svd_cut 0%Z Z.gtb sing (Some 3) = Ok ([((-1)%Z, 2); (0%Z, 1); (2%Z, 0)], [((-2)%Z, 0); (0%Z, 1); (1%Z, 2)], [((-1)%Z, [9; 4]%Z); (0%Z, [7]%Z)]).
Proof.
  split; [exact Zgt_order|]. split; [repeat constructor|]. split; [cbn; lia|]. vm_compute. reflexivity.
Qed.

(** ** C38.  Full statement, false of the code: when only zeros are left the neutral charge is taken, whether it occurs or not. *)
Definition C38_claim : Prop := forall (sing : list (Z * list Z)) n, msorted sing -> (forall s l, In (s, l) sing -> descending Z.gtb l) ->
  (forall s l x, In (s, l) sing -> In x l -> (0 <= x)%Z) -> n < total_dimension sing ->
  exists u v sing', svd_cut 0%Z Z.gtb sing (Some n) = Ok (u, v, sing') /\ forall s l, In (s, l) sing -> exists k, mfind s u = Some k /\ k <= length l.
Ltac descend := intros ? ? ? ? ? Hx Hy; repeat match goal with H : nth_error _ ?i = Some _ |- _ => destruct i; cbn in H; try discriminate end; try lia; try (injection Hx as <-; injection Hy as <-; reflexivity).
(** std::out_of_range when the neutral charge does not occur *)
Theorem C38_zeros_refuted : ~ C38_claim.
Proof.
  intro C. destruct (C [(1%Z, [3; 0]%Z); (2%Z, [0]%Z)] 2) as [u [v [s' [E _]]]].
  - repeat constructor.
  - intros s l [H|[H|[]]]; injection H as <- <-; descend.
  - intros s l x [H|[H|[]]] Hx; injection H as <- <-; cbn in Hx; lia.
  - cbn. lia.
  - vm_compute in E. discriminate.
Qed.
Print Assumptions C38_zeros_refuted.
(** otherwise more values than it has; one step further a read past the end of its list *)
Theorem C38_too_many_refuted : exists sing : list (Z * list Z), msorted sing /\ (forall s l, In (s, l) sing -> descending Z.gtb l) /\ total_dimension sing = 4 /\
  (exists v, svd_cut 0%Z Z.gtb sing (Some 2) = Ok ([(0%Z, 2); (1%Z, 0)], v, [(0%Z, [3; 0]%Z)]) /\ mfind 0%Z sing = Some [3%Z]) /\
  svd_cut 0%Z Z.gtb sing (Some 3) = UB.
Proof.
  exists [(0%Z, [3]%Z); (1%Z, [0; 0; 0]%Z)]. split; [repeat constructor|]. split; [intros s l [H|[H|[]]]; injection H as <- <-; descend|]. split; [reflexivity|]. split; [|vm_compute; reflexivity].
  eexists. split; vm_compute; reflexivity.
Qed.
Print Assumptions C38_too_many_refuted.
(** what holds: zeros do no harm as long as there are enough values greater than zero to choose from *)
Theorem C38_zeros_partial :
  forall (S V : Type) (SS : Sym S) (SL : SymLaws S) (vzero : V) (greater : V -> V -> bool), strict_order greater ->
  forall (sing : list (S * list V)) n, msorted sing -> (forall s l, In (s, l) sing -> descending greater l) ->
  n < total_dimension sing -> n <= sum_nat (map (fun sv => positives vzero greater (snd sv)) sing) ->
  exists u v r, svd_cut vzero greater sing (Some n) = Ok (u, v, prefixes r sing) /\ best_selection greater sing n r /\
    u = map (fun sv => (fst sv, r (fst sv))) sing /\ v = of_list (map (fun sv => (sneg (fst sv), r (fst sv))) sing).
Proof. exact @svd_cut_general. Qed.
Print Assumptions C38_zeros_partial.
Example C38_example : let sing := [((-1)%Z, [9; 4; 0]%Z); (0%Z, [7; 0]%Z)] in
  3 <= sum_nat (map (fun sv => positives 0%Z Z.gtb (snd sv)) sing) /\ svd_cut 0%Z Z.gtb sing (Some 3) = Ok ([((-1)%Z, 2); (0%Z, 1)], [(0%Z, 1); (1%Z, 2)], [((-1)%Z, [9; 4]%Z); (0%Z, [7]%Z)]).
Proof. split; [cbn; lia|vm_compute; reflexivity]. Qed.
