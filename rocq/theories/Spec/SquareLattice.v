(** Lattices of tensors whose edges U, D, L, R are the bonds of a square grid. *)
From Coq Require Import Ascii List Bool Arith.
From Verif Require Import Base.Outcome Base.SMap Model.Symmetry Model.Edge Model.Core Model.Qr Model.Svd Model.Auxiliaries Proof.CoreFacts Spec.Blocks Spec.Relabel Spec.Contract Spec.Plain Spec.Lapack Spec.Svd Spec.Grid.
Import ListNotations.

(** the names the decompositions make up for a moment are different from each other and from U, D, L, R *)
Definition own_names (Iq : qr_names) (Is : svd_names) : Prop :=
  i_qr_1 Iq <> i_qr_2 Iq /\ i_svd_u Is <> i_svd_v Is /\ forall d, nm d 0 <> i_qr_1 Iq /\ nm d 0 <> i_qr_2 Iq /\ nm d 0 <> i_svd_u Is /\ nm d 0 <> i_svd_v Is.

Section Lattice.
  Context {R V : Type} {RR : Scalar R}.
  Notation tens := (tensor unit R).

  (** m rows of n sites *)
  Definition lattice_of (m n : nat) (site : nat -> nat -> tens) : list (list tens) := map (fun i => map (site i) (seq 0 n)) (seq 0 m).
  (** the tensor for site (i, j) of a lattice with bonds of dimension [dim]: an edge for every bond the site has, no other edges *)
  Record fits_site (m n : nat) (dim : bond -> nat) (i j : nat) (t : tens) : Prop := {
    f_wf : wf_tensor t;
    f_block : t_blocks t <> [];
    f_up : dimension t (nm Up 0) = match i with 0 => None | S i' => Some (dim (Below i' j)) end;
    f_down : dimension t (nm Down 0) = if 1 + i <? m then Some (dim (Below i j)) else None;
    f_left : dimension t (nm Lft 0) = match j with 0 => None | S j' => Some (dim (Right_of i j')) end;
    f_right : dimension t (nm Rgt 0) = if 1 + j <? n then Some (dim (Right_of i j)) else None;
    f_only : forall n, In n (t_names t) -> In n [nm Up 0; nm Down 0; nm Lft 0; nm Rgt 0] }.
  (** its elements *)
  Definition elements (t : tens) (u d l r : nat) : R := value t [(nm Up 0, u); (nm Down 0, d); (nm Lft 0, l); (nm Rgt 0, r)].
  (** one site replaced *)
  Definition put_site (site : nat -> nat -> tens) (i j : nat) (x : tens) (i' j' : nat) : tens := if Nat.eqb i' i && Nat.eqb j' j then x else site i' j'.

  (** every product of the dimensions of the bonds below a row, from any column on, is at most [cut]; the same for columns *)
  Definition rows_within (m n : nat) (dim : bond -> nat) (cut : nat) : Prop :=
    forall i j, 1 + i < m -> fold_right Nat.mul 1 (map (fun j' => dim (Below i j')) (seq (1 + j) (n - (1 + j)))) <= cut.
  Definition columns_within (m n : nat) (dim : bond -> nat) (cut : nat) : Prop :=
    forall i j, 1 + j < n -> fold_right Nat.mul 1 (map (fun i' => dim (Right_of i' j)) (seq (1 + i) (m - (1 + i)))) <= cut.

  (** the result has [P]; or a routine of LAPACK failed, which was reported: by an exception from qr, by a printed message from svd *)
  Definition unless_reported {A : Type} (L : qr_lapack R) (gesvd : nat -> nat -> list R -> bool * (list V * list R * list R)) (P : A -> Prop) (x : res (A * bool)) : Prop :=
    match x with
    | Ok (a, false) => P a
    | Ok (_, true) => ~ svd_never_fails gesvd
    | Throw (RuntimeError _) => ~ qr_never_fails L
    | _ => False
    end.

  (** the sites that may be replaced together *)
  Inductive replaceable (m n : nat) (dim : bond -> nat) : list (nat * nat * tens) -> Prop :=
  | replace_none : replaceable m n dim []
  | replace_one : forall i j x, i < m -> j < n -> fits_site m n dim i j x -> replaceable m n dim [(i, j, x)]
  | replace_row : forall i j x y, i < m -> 1 + j < n -> fits_site m n dim i j x -> fits_site m n dim i (1 + j) y -> replaceable m n dim [(i, j, x); (i, 1 + j, y)]
  | replace_column : forall i j x y, 1 + i < m -> j < n -> fits_site m n dim i j x -> fits_site m n dim (1 + i) j y -> replaceable m n dim [(i, j, x); (1 + i, j, y)].
  Definition replaced (site : nat -> nat -> tens) (l : list (nat * nat * tens)) : nat -> nat -> tens := fold_left (fun s p => put_site s (fst (fst p)) (snd (fst p)) (snd p)) l site.

  (** the second of two sites is the one to the right of the first or the one below it *)
  Definition neighbours (l : list (nat * nat * tens)) : Prop :=
    match l with
    | [(i, j, _); (i', j', _)] => (i' = i /\ j' = 1 + j) \/ (i' = 1 + i /\ j' = j)
    | _ => True
    end.
  (** whether the lattice is contracted column by column: hint 'v' for one site, two sites below each other *)
  Definition column_wise (l : list (nat * nat * tens)) (hint : ascii) : bool :=
    match l with
    | [_] => Ascii.eqb hint "v"%char
    | [(i, _, _); (i', _, _)] => negb (Nat.eqb i i')
    | _ => false
    end.
  Definition lines_within (column_wise : bool) : nat -> nat -> (bond -> nat) -> nat -> Prop := if column_wise then columns_within else rows_within.

  (** an environment of a site: the edges U0, D0, L0, R0, as long as the edges U, D, L, R of the site *)
  Definition faces (x e : tens) : Prop :=
    wf_tensor e /\ t_blocks e <> [] /\ (forall d, dimension e (nm d 4) = dimension x (nm d 0)) /\ forall n, In n (t_names e) -> exists d, n = nm d 4.
  (** the sum over the bonds of site (i, j) of an environment, with an edge U0, D0, L0, R0 for every bond, times the site *)
  Definition size_up (dim : bond -> nat) (i j : nat) : nat := match i with 0 => 1 | S i' => dim (Below i' j) end.
  Definition size_down (m : nat) (dim : bond -> nat) (i j : nat) : nat := if 1 + i <? m then dim (Below i j) else 1.
  Definition size_left (dim : bond -> nat) (i j : nat) : nat := match j with 0 => 1 | S j' => dim (Right_of i j') end.
  Definition size_right (n : nat) (dim : bond -> nat) (i j : nat) : nat := if 1 + j <? n then dim (Right_of i j) else 1.
  Definition put_in (m n : nat) (dim : bond -> nat) (i j : nat) (e x : tens) : R :=
    Sum (size_up dim i j) (fun u => Sum (size_down m dim i j) (fun d => Sum (size_left dim i j) (fun l => Sum (size_right n dim i j) (fun r =>
      rmul (value e [(nm Up 4, u); (nm Down 4, d); (nm Lft 4, l); (nm Rgt 4, r)]) (elements x u d l r))))).
End Lattice.
