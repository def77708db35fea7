(** Symmetry kinds: include/TAT/symmetry.hpp, include/TAT/basic_type.hpp:58-66.
    Definitions only; the laws are proved in Proof/SymmetryFacts.v. *)
From Coq Require Import List Bool ZArith.
From Verif Require Import Base.SMap.
Import ListNotations.

(** What the rest of the library uses of a symmetry type: comparison, default value,
    [operator+]/[operator+=], unary [operator-], the fermion number [.fermi] (0 for bosonic
    kinds, where the member does not exist) and the two compile-time tests
    is_fermi_symmetry_v (symmetry.hpp:76-80) and is_same_v<Symmetry, NoSymmetry>. *)
Class Sym (S : Type) : Type := {
  sym_ord :> Ord S;
  szero : S;
  sadd : S -> S -> S;
  sneg : S -> S;
  sfermi : S -> Z;
  is_fermi : bool;
  is_nosym : bool }.

(** bool(symmetry.fermi % 2), symmetry.hpp:108, 129 *)
Definition sodd {S : Type} {SS : Sym S} (s : S) : bool := Z.odd (sfermi s).

(** auto sum = Symmetry(); for (...) sum += s;   e.g. edge.hpp:329-332 *)
Definition ssum {S : Type} {SS : Sym S} (l : list S) : S := fold_left sadd l szero.

(** ** NoSymmetry, symmetry.hpp:177-194: information() is the constant 0 *)
#[global] Instance Ord_unit : Ord unit := { cmp := fun _ _ => Eq }.
#[global] Instance Sym_No : Sym unit := {
  szero := tt; sadd := fun _ _ => tt; sneg := fun _ => tt; sfermi := fun _ => 0%Z;
  is_fermi := false; is_nosym := true }.

(** ** Z2Symmetry, symmetry.hpp:199-219: z2 is a bool, + is exclusive or, - is the identity *)
Definition bool_cmp (a b : bool) : comparison :=
  match a, b with
  | false, true => Lt | true, false => Gt | _, _ => Eq
  end.
#[global] Instance Ord_bool : Ord bool := { cmp := bool_cmp }.
#[global] Instance Sym_Z2 : Sym bool := {
  szero := false; sadd := xorb; sneg := fun a => a; sfermi := fun _ => 0%Z;
  is_fermi := false; is_nosym := false }.

(** ** U1Symmetry, symmetry.hpp:224-244.  u1 is std::int32_t.  Signed overflow is undefined behaviour, so
    the carrier is Z and overflow-free programs are assumed wherever U1 is used;
    [u1_add_machine] below states exactly when the machine operation is defined. *)
#[global] Instance Ord_Z : Ord Z := { cmp := Z.compare }.
#[global] Instance Sym_U1 : Sym Z := {
  szero := 0%Z; sadd := Z.add; sneg := Z.opp; sfermi := fun _ => 0%Z;
  is_fermi := false; is_nosym := false }.

Definition int32_ok (z : Z) : bool := (Z.leb (-2147483648) z && Z.leb z 2147483647)%bool.
(** symmetry_1.u1 + symmetry_2.u1 on std::int32_t; [None] is signed overflow (undefined behaviour) *)
Definition u1_add_machine (a b : Z) : option Z :=
  let c := (a + b)%Z in if int32_ok c then Some c else None.
(** -symmetry.u1 on std::int32_t *)
Definition u1_neg_machine (a : Z) : option Z :=
  let c := (- a)%Z in if int32_ok c then Some c else None.

(** ** 16-bit fermion number: Fermi = std::int16_t (basic_type.hpp:66).  The sum is computed in int and converted
    back, i.e. modulo 2^16 (implementation-defined before C++20, two's complement on all targets). *)
Definition int16_ok (z : Z) : bool := (Z.leb (-32768) z && Z.leb z 32767)%bool.
Definition wrap16 (z : Z) : Z := ((z + 32768) mod 65536 - 32768)%Z.
Definition fermi16 : Type := { z : Z | int16_ok z = true }.
Lemma wrap16_ok : forall z, int16_ok (wrap16 z) = true.
Proof.
  intro z. unfold int16_ok, wrap16.
  destruct (Z.mod_pos_bound (z + 32768) 65536 eq_refl) as [H1 H2].
  apply andb_true_intro. split; apply Z.leb_le.
  - apply Z.le_add_le_sub_r. exact H1.
  - apply Z.le_sub_le_add_r. change (32767 + 32768)%Z with (65536 - 1)%Z.
    apply Z.lt_le_pred in H2. exact H2.
Qed.
Definition to_fermi (z : Z) : fermi16 := exist _ (wrap16 z) (wrap16_ok z).
Definition fermi_z (f : fermi16) : Z := proj1_sig f.
Definition fermi_add (a b : fermi16) : fermi16 := to_fermi (fermi_z a + fermi_z b).
Definition fermi_neg (a : fermi16) : fermi16 := to_fermi (- fermi_z a).

(** ** FermiSymmetry, symmetry.hpp:249-269 *)
#[global] Instance Ord_fermi : Ord fermi16 := { cmp := fun a b => Z.compare (fermi_z a) (fermi_z b) }.
#[global] Instance Sym_Fermi : Sym fermi16 := {
  szero := to_fermi 0; sadd := fermi_add; sneg := fermi_neg; sfermi := fermi_z;
  is_fermi := true; is_nosym := false }.

(** std::tie comparison of pairs *)
#[global] Instance Ord_pair (A B : Type) {OA : Ord A} {OB : Ord B} : Ord (A * B) := {
  cmp := fun x y => match cmp (fst x) (fst y) with Eq => cmp (snd x) (snd y) | c => c end }.

(** ** FermiZ2Symmetry, symmetry.hpp:274-296 *)
#[global] Instance Sym_FermiZ2 : Sym (fermi16 * bool) := {
  szero := (to_fermi 0, false);
  sadd := fun a b => (fermi_add (fst a) (fst b), xorb (snd a) (snd b));
  sneg := fun a => (fermi_neg (fst a), snd a);
  sfermi := fun a => fermi_z (fst a);
  is_fermi := true; is_nosym := false }.

(** ** FermiU1Symmetry, symmetry.hpp:301-323 *)
#[global] Instance Sym_FermiU1 : Sym (fermi16 * Z) := {
  szero := (to_fermi 0, 0%Z);
  sadd := fun a b => (fermi_add (fst a) (fst b), (snd a + snd b)%Z);
  sneg := fun a => (fermi_neg (fst a), (- snd a)%Z);
  sfermi := fun a => fermi_z (fst a);
  is_fermi := true; is_nosym := false }.

Section Parity.
  Context {S : Type} {SS : Sym S}.

  (** get_reverse_parity, symmetry.hpp:103-113 (the three vectors have the same length) *)
  Fixpoint get_reverse_parity (symmetries : list S) (reverse_flag valid_mark : list bool) : bool :=
    match symmetries, reverse_flag, valid_mark with
    | s :: ss, r :: rs, v :: vs =>
        xorb (if r && v then sodd s else false) (get_reverse_parity ss rs vs)
    | _, _, _ => false
    end.

  (** inner loop of get_transpose_parity over j > i, symmetry.hpp:127-131 *)
  Fixpoint transpose_parity_inner (si : S) (pi : nat) (symmetries : list S) (plan : list nat) : bool :=
    match symmetries, plan with
    | s :: ss, p :: ps =>
        xorb (if Nat.ltb p pi then sodd si && sodd s else false) (transpose_parity_inner si pi ss ps)
    | _, _ => false
    end.
  (** get_transpose_parity, symmetry.hpp:122-134 *)
  Fixpoint get_transpose_parity (symmetries : list S) (plan : list nat) : bool :=
    match symmetries, plan with
    | s :: ss, p :: ps => xorb (transpose_parity_inner s p ss ps) (get_transpose_parity ss ps)
    | _, _ => false
    end.

  (** the leading positions whose flag is [group]: the inner while of symmetry.hpp:155-157 *)
  Fixpoint take_group (group : nat) (symmetries : list S) (flag : list nat) : list S * list S * list nat :=
    match symmetries, flag with
    | s :: ss, f :: fs =>
        if Nat.eqb f group then
          let '(g, ss', fs') := take_group group ss fs in (s :: g, ss', fs')
        else ([], symmetries, flag)
    | _, _ => ([], symmetries, flag)
    end.
  (** symmetry.hpp:159-167: ((sum^2 - sum of squares) / 2) % 2 in C++ int arithmetic (truncating / and %).
      int overflow (fermion numbers beyond 2^15) is not modelled. *)
  Definition group_parity (g : list S) : bool :=
    let sum := fold_left (fun acc s => (acc + sfermi s)%Z) g 0%Z in
    let sum2 := fold_left (fun acc s => (acc + sfermi s * sfermi s)%Z) g 0%Z in
    negb (Z.eqb (Z.rem (Z.quot (sum * sum - sum2) 2) 2) 0).
  Fixpoint split_merge_parity_from (group : nat) (symmetries : list S) (flag : list nat) (valid_mark : list bool) : bool :=
    match valid_mark with
    | [] => false
    | v :: vs =>
        let '(g, ss, fs) := take_group group symmetries flag in
        xorb (if v then group_parity g else false) (split_merge_parity_from (1 + group) ss fs vs)
    end.
  (** get_split_merge_parity, symmetry.hpp:143-171 *)
  Definition get_split_merge_parity (symmetries : list S) (flag : list nat) (valid_mark : list bool) : bool :=
    split_merge_parity_from 0 symmetries flag valid_mark.
End Parity.
