(** Coordinates by name: the coordinate on a merged edge, and the arrows of a group of fermionic edges. *)
From Coq Require Import List Bool Arith.
From Verif Require Import Base.SMap Model.Symmetry Model.Edge Spec.Blocks Spec.Fuse Spec.Sign.
Import ListNotations.

Section Relabel.
  Context {S : Type} {SS : Sym S}.
  Notation entry := (S * nat)%type.

  (** the (charge, index) given to the leg n *)
  Definition coord (pos : list (nat * entry)) (n : nat) : entry :=
    match mfind n pos with Some x => x | None => (szero, 0) end.
  (** the edge called n *)
  Definition edge_named (legs : list (nat * edge S)) (n : nat) : edge S :=
    match mfind n legs with Some e => e | None => mkEdge false [] end.
  (** the coordinate on the edge obtained by merging the legs l, in this order *)
  Definition joined (legs : list (nat * edge S)) (l : list nat) (pos : list (nat * entry)) : entry :=
    fuse (map (fun n => emap (edge_named legs n)) l) (map (coord pos) l).
  (** the coordinate on leg n of a tensor some of whose legs are merged ones *)
  Definition merged_coord (legs : list (nat * edge S)) (merge : list (nat * list nat)) (pos : list (nat * entry)) (n : nat) : entry :=
    match mfind n merge with Some l => joined legs l pos | None => coord pos n end.

  (** the arrow of a group: the arrow of the first edge that has a fermionic charge *)
  Definition first_arrow (es : list (edge S)) : option bool :=
    match find arrow_valid es with Some e => Some (earrow e) | None => None end.
  (** e has a fermionic charge and its arrow differs from the group's *)
  Definition against (es : list (edge S)) (e : edge S) : bool :=
    match first_arrow es with Some a => arrow_valid e && negb (Bool.eqb a (earrow e)) | None => false end.
  Definition flip (e : edge S) : edge S := mkEdge (negb (earrow e)) (emap e).

  (** number of elements satisfying a test *)
  Definition count {A : Type} (f : A -> bool) (l : list A) : nat := length (filter f l).
  (** number of pairs of odd legs inside the selected groups *)
  Definition pairs_in (odd : nat -> bool) (selected : nat -> bool) (groups : list (nat * list nat)) : nat :=
    list_sum (map (fun nl => if selected (fst nl) then odd_pairs odd (snd nl) else 0) groups).

  (** ** merging by names *)
  Definition member (n : nat) (l : list nat) : bool := existsb (Nat.eqb n) l.
  (** the groups without the names that do not exist *)
  Definition effective (names : list nat) (merge : list (nat * list nat)) : list (nat * list nat) :=
    map (fun nl => (fst nl, filter (fun n => member n names) (snd nl))) merge.
  (** the legs that leg n of the merged tensor stands for *)
  Definition group_of (merge : list (nat * list nat)) (n : nat) : list nat :=
    match mfind n merge with Some l => l | None => [n] end.
  (** names after merging: a merged edge stands where the last edge of its group stood; edges of empty groups come first *)
  Definition merged_names (names : list nat) (merge : list (nat * list nat)) : list nat :=
    rev (map fst (filter (fun nl => Nat.eqb (length (snd nl)) 0) merge)) ++
    flat_map (fun n => match find (fun nl => member n (snd nl)) merge with
                       | Some nl => if Nat.eqb n (last (snd nl) 0) then [fst nl] else []
                       | None => [n]
                       end) names.
  (** is the sign of this edge applied? *)
  Definition applied (apply_parity : bool) (exclude : list nat) (n : nat) : bool :=
    if apply_parity then negb (member n exclude) else member n exclude.
  (** the arrow of leg n is reversed because it differs from that of its group *)
  Definition turned (legs : list (nat * edge S)) (groups : list (list nat)) (n : nat) : bool :=
    existsb (fun l => member n l && against (map (edge_named legs) l) (edge_named legs n)) groups.
  (** sign of a merge: the legs are brought into the order of the groups, those of the groups with applied sign in
      reversed order, and every odd leg turned round with applied sign contributes one *)
  Definition merge_sign (legs : list (nat * edge S)) (names : list nat) (merge : list (nat * list nat)) (ap : bool)
      (ex_merge ex_reverse : list nat) (pos : list (nat * entry)) : nat :=
    let target := merged_names names merge in
    exchanged_odd (leg_odd pos) names
      (flat_map (fun n => if applied ap ex_merge n then rev (group_of merge n) else group_of merge n) target)
    + count (fun n => turned legs (map (group_of merge) target) n && applied ap ex_reverse n && leg_odd pos n) names.

  (** ** splitting by names *)
  (** the legs a leg is split into; parts keep the arrow of the leg *)
  Definition leg_parts (split : list (nat * list (nat * edge S))) (ne : nat * edge S) : list (nat * edge S) :=
    match mfind (fst ne) split with
    | Some ps => map (fun p => (fst p, mkEdge (earrow (snd ne)) (emap (snd p)))) ps
    | None => [ne]
    end.
  Definition split_legs (split : list (nat * list (nat * edge S))) (legs : list (nat * edge S)) : list (nat * edge S) :=
    flat_map (leg_parts split) legs.
  (** the coordinate on leg n of the tensor before splitting *)
  Definition unsplit_coord (split : list (nat * list (nat * edge S))) (legs : list (nat * edge S)) (pos : list (nat * entry)) (n : nat) : entry :=
    match mfind n split with Some ps => joined (split_legs split legs) (map fst ps) pos | None => coord pos n end.
  (** the parts of every leg, by name *)
  Definition part_names (split : list (nat * list (nat * edge S))) (n : nat) : list nat :=
    match mfind n split with Some ps => map fst ps | None => [n] end.
  (** every split leg has the total charge of its parts *)
  Definition totals_present (split : list (nat * list (nat * edge S))) (legs : list (nat * edge S)) (pos : list (nat * entry)) : bool :=
    forallb (fun ne => mmem (ssum (map (fun n => fst (coord pos n)) (part_names split (fst ne)))) (emap (snd ne))) legs.
End Relabel.
