(** Interned edge names.  include/TAT/name.hpp:46-99, include/TAT/io.hpp:663-684.
    The ids are C++ ints; the model uses natural numbers, so tables of 2^31 and more names are outside of it.  Strings are lists
    of bytes with the order of std::string.  The byte format of the table is in Model/Binary.v. *)
From Coq Require Import List Arith.
From Verif Require Import Base.Outcome Base.SMap.
Import ListNotations.

Definition text := list nat.

(** fast_name_dataset_t, name.hpp:46-69 *)
Record dataset := mkDataset { total_index : nat; name_to_id : list (text * nat); id_to_name : list text }.

(** the static object, name.hpp:56,63,67,75 *)
Definition fresh_dataset : dataset := mkDataset 1 [([], 0)] [[]].

(** FastName(const std::string&), name.hpp:92-99 *)
Definition new_name (ds : dataset) (s : text) : dataset * nat :=
  match mfind s (name_to_id ds) with
  | None => (mkDataset (S (total_index ds)) (mset s (total_index ds) (name_to_id ds)) (id_to_name ds ++ [s]), total_index ds)
  | Some i => (ds, i)
  end.

(** operator const std::string&, name.hpp:100-102: unchecked vector access *)
Definition name_text (ds : dataset) (id : nat) : res text := get_or_ub (nth_error (id_to_name ds) id).

(** operator== and operator<, name.hpp:112-117 *)
Definition name_eq (a b : nat) : bool := Nat.eqb a b.
Definition name_less (a b : nat) : bool := Nat.ltb a b.

(** what is written by operator< on the table, io.hpp:663-665 *)
Definition dump_table (ds : dataset) : list text := id_to_name ds.
(** operator> on the table, io.hpp:666-674: the old contents are discarded *)
Definition load_table (table : list text) : dataset :=
  mkDataset (length table) (fold_left (fun m i => mset (nth i table []) i m) (seq 0 (length table)) []) table.

(** a process creating names one after the other: the table at the end and the names obtained *)
Fixpoint new_names (ds : dataset) (history : list text) : dataset * list nat :=
  match history with
  | [] => (ds, [])
  | s :: h => let (ds1, i) := new_name ds s in let (ds2, is) := new_names ds1 h in (ds2, i :: is)
  end.
