(** Seeds of random numbers.  include/square/basic.hpp:141-183.
    The value of std::random_device on the root is a parameter; MPI_Bcast is the broadcast of Model/Mpi.v (any implementation gives every process the value of
    the root). *)
From Coq Require Import List Bool NArith ZArith.
From Verif Require Import Base.Outcome Model.Mpi.
Import ListNotations.
Local Open Scope N_scope.

Section Seeds.
  Context {engine : Type}.
  (** engine.seed(s); std::uniform_int_distribution<std::uint32_t>(1)(engine): the number and the engine afterwards *)
  Variables (engine_seed : N -> engine) (pick : engine -> N * engine).
  (** get_seed, 149-157; std::uint32_t *)
  Definition get_seed (size rank : nat) (device s : N) (k : N -> prog N engine) : prog N engine :=
    broadcast size rank 0%Z (if Nat.eqb rank 0 then (if s =? 0 then device else s) else s) k.
  (** seed, 166-172 *)
  Definition seed (size rank : nat) (device s : N) : prog N engine :=
    if s =? 0 then get_seed size rank device 0 (fun s => Stop (Ok (engine_seed s))) else Stop (Ok (engine_seed s)).
  (** split_seed, 174-178: new_seed + rank is computed in std::uint32_t *)
  Definition split_seed (rank : nat) (e : engine) : engine := engine_seed ((fst (pick e) + N.of_nat rank) mod 2 ^ 32).
  (** merge_seed, 179-183 *)
  Definition merge_seed (size rank : nat) (device : N) (e : engine) : prog N engine :=
    get_seed size rank device (fst (pick e)) (fun s => Stop (Ok (engine_seed s))).
End Seeds.

(** std::default_random_engine of libstdc++, with which the library is built: std::minstd_rand0, that is linear_congruential_engine<uint_fast32_t, 16807, 0, 2147483647> *)
Definition modulus_minstd : N := 2147483647.
(** seed(s): s modulo the modulus, and one instead of zero ([rand.eng.lcong]) *)
Definition minstd_seed (s : N) : N := if s mod modulus_minstd =? 0 then 1 else s mod modulus_minstd.
(** operator(): the next state is also the number *)
Definition minstd_next (st : N) : N := (16807 * st) mod modulus_minstd.

(** std::uniform_int_distribution of libstdc++ (bits/uniform_int_dist.h) for a generator of the numbers 1, ..., 2147483646.
    A range of 0, ..., 2: numbers are divided by a third of the range, the last ones left out and drawn again *)
Fixpoint uniform_three (fuel : nat) (st : N) : option (N * N) :=
  match fuel with
  | O => None
  | S fuel => let st := minstd_next st in if 2147483643 <=? st - 1 then uniform_three fuel st else Some ((st - 1) / 715827881, st)
  end.
(** the range 1, ..., 2^32 - 1: larger than the one of the generator, so a number with two digits is drawn, again if it is too large *)
Fixpoint uniform_uint32 (fuel : nat) (st : N) : option (N * N) :=
  match fuel with
  | O => None
  | S fuel =>
      match uniform_three fuel st with
      | None => None
      | Some (high, st) => let tmp := 2147483646 * high in let st := minstd_next st in let ret := tmp + (st - 1) in if 4294967294 <? ret then uniform_uint32 fuel st else Some (ret + 1, st)
      end
  end.
