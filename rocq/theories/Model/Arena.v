(** Scratch memory: monotonic_buffer_resource and scope_resource.  include/TAT/pmr_resource.hpp:76-176, 241-254.
    Addresses and sizes are integers; std::size_t arithmetic wraps modulo 2^64.  The upstream resource is an oracle: its answer
    (None: it throws std::bad_alloc) is part of each request. *)
From Coq Require Import List ZArith.
From Verif Require Import Base.Outcome.
Import ListNotations.
Open Scope Z_scope.

Definition word : Z := 2 ^ 64.
Definition wrap (x : Z) : Z := x mod word.

(** monotonic_buffer_resource, pmr_resource.hpp:84-91; held: m_buffer_list *)
Record arena := mkArena { held : list (Z * Z); current : Z; current_size : Z; next_size : Z; initial : Z; initial_size : Z }.

Definition default_next : Z := 32 * 8.

(** increase_next_size, 109-111 *)
Definition doubled (n : Z) : Z := if (word - 1) / 2 <? n then word - 1 else n * 2.
(** increase_next_size_to, 112-116; the loop is cut after 64 rounds *)
Fixpoint increase_to (fuel : nat) (n minimum : Z) : res Z :=
  if n <? minimum then match fuel with O => OutOfFuel | S f => increase_to f (doubled n) minimum end else Ok n.

(** constructor, 96-106 *)
Definition new_arena (buffer size : Z) : res arena :=
  bind (increase_to 64 default_next size) (fun n => Ok (mkArena [] buffer size n buffer size)).

(** remaining_storage, 136-143: the storage left and the padding *)
Definition remaining (a : arena) (alignment : Z) : Z * Z :=
  let minus1 := wrap (alignment - 1) in
  let mask := wrap (Z.lnot minus1) in
  let aligned := Z.land (wrap (current a + minus1)) mask in
  let aligner := wrap (aligned - current a) in
  (if current_size a <=? aligner then 0 else wrap (current_size a - aligner), aligner).

(** allocate_from_current, 145-150 *)
Definition take (a : arena) (aligner bytes : Z) : arena * Z :=
  let result := current a + aligner in
  (mkArena (held a) (result + bytes) (wrap (current_size a - (aligner + bytes))) (next_size a) (initial a) (initial_size a), result).

(** do_allocate, 152-163.  None: the upstream threw std::bad_alloc (159); next_size has been increased by then (158) *)
Definition allocate (a : arena) (bytes alignment : Z) (answer : option Z) : res (arena * option Z) :=
  let (left, aligner) := remaining a alignment in
  if left <? bytes then
    bind (increase_to 64 (next_size a) bytes) (fun n =>
    match answer with
    | None => Ok (mkArena (held a) (current a) (current_size a) n (initial a) (initial_size a), None)
    | Some p => let (a', q) := take (mkArena ((p, n) :: held a) p n (doubled n) (initial a) (initial_size a)) 0 bytes in Ok (a', Some q)
    end)
  else let (a', q) := take a aligner bytes in Ok (a', Some q).

(** release, 126-134: the arena and the buffers given back to upstream *)
Definition release (a : arena) : arena * list (Z * Z) :=
  (mkArena [] (initial a) (initial_size a) default_next (initial a) (initial_size a), held a).

(** a history of requests; each allocation carries the upstream's answer in case it is asked *)
Inductive request : Type := Alloc (bytes alignment : Z) (answer : option Z) | Release.

(** live: the ranges handed out since the last release (address, bytes, alignment), newest first;
    obtained, returned: buffers received from and given back to upstream so far *)
Record session := mkSession { ar : arena; live : list (Z * Z * Z); obtained : list (Z * Z); returned : list (Z * Z) }.
Definition serve (s : session) (r : request) : res session :=
  match r with
  | Alloc bytes alignment answer =>
      bind (allocate (ar s) bytes alignment answer) (fun ap =>
        let new := firstn (length (held (fst ap)) - length (held (ar s))) (held (fst ap)) in
        Ok (mkSession (fst ap) (match snd ap with Some q => [(q, bytes, alignment)] | None => [] end ++ live s) (new ++ obtained s) (returned s)))
  | Release => let (a, back) := release (ar s) in Ok (mkSession a [] (obtained s) (back ++ returned s))
  end.
Definition serve_all (s : session) (rs : list request) : res session := foldM serve rs s.
Definition new_session (buffer size : Z) : res session := bind (new_arena buffer size) (fun a => Ok (mkSession a [] [] [])).
