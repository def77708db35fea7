(** Binary input and output.  include/TAT/io.hpp:99-108, 141-153, 179-200, 251-287, 344-368, 564-684.
    A byte is an integer from 0 to 255.  The machine is little endian, objects have the layout of the Itanium C++ ABI on x86-64; bytes of
    padding inside an object are all equal to [pad].  Memory is unlimited: resize never fails. *)
From Coq Require Import List Bool Arith ZArith.
From Verif Require Import Base.Outcome Base.SMap Model.Symmetry Model.Edge Model.Core Model.Names.
Import ListNotations.

Notation bytes := (list Z) (only parsing).
(** what is left of an input stream, and whether it is still good() *)
Notation stream := (bytes * bool)%type (only parsing).
(** the memory of an object; None: a byte that has not been written *)
Notation memory := (list (option Z)) (only parsing).
Definition reader (A : Type) : Type := stream -> res (A * stream).

(** istream::read(p, n): with fewer bytes left than asked for, those are stored and the stream fails; a failed stream stores nothing *)
Definition read (old : memory) (s : stream) : memory * stream :=
  let (rest, good) := s in
  if negb good then (old, s)
  else if Nat.leb (length old) (length rest) then (map Some (firstn (length old) rest), (skipn (length old) rest, true))
  else (map Some rest ++ skipn (length rest) old, ([], false)).

Fixpoint little (n : nat) (z : Z) : bytes := match n with O => [] | S n => (z mod 256)%Z :: little n (z / 256)%Z end.
Fixpoint unlittle (l : bytes) : Z := match l with [] => 0%Z | b :: l => (b + 256 * unlittle l)%Z end.
(** two's complement *)
Definition signed (n : nat) (l : bytes) : Z :=
  let z := unlittle l in (if 2 ^ (8 * Z.of_nat n - 1) <=? z then z - 2 ^ (8 * Z.of_nat n) else z)%Z.

(** objects that are written and read as they are in memory; from_bytes = None: no value has this representation *)
Class Plain (A : Type) : Type := { size_of : nat; to_bytes : Z -> A -> bytes; from_bytes : bytes -> option A }.
Fixpoint known (m : memory) : option bytes :=
  match m with
  | [] => Some []
  | Some b :: m => match known m with Some l => Some (b :: l) | None => None end
  | None :: _ => None
  end.
Definition value_of_memory {A} {PA : Plain A} (m : memory) : option A := match known m with Some l => from_bytes l | None => None end.
(** in > data for such an object, 104-108; using what was read is undefined if not all of it is a value *)
Definition read_plain {A} {PA : Plain A} (old : memory) : reader A := fun s =>
  let (m, s') := read old s in bind (get_or_ub (value_of_memory m)) (fun a => Ok (a, s')).

(** Size = std::uint64_t, basic_type.hpp:53 *)
#[global] Instance Plain_size : Plain nat := {
  size_of := 8; to_bytes := fun _ n => little 8 (Z.of_nat n); from_bytes := fun l => Some (Z.to_nat (unlittle l)) }.
(** bool: a byte other than 0 and 1 is no value *)
#[global] Instance Plain_bool : Plain bool := {
  size_of := 1; to_bytes := fun _ b => [if b then 1%Z else 0%Z];
  from_bytes := fun l => match l with [0%Z] => Some false | [1%Z] => Some true | _ => None end }.
(** NoSymmetry, symmetry.hpp:177: an empty class has one byte of padding *)
#[global] Instance Plain_unit : Plain unit := { size_of := 1; to_bytes := fun pad _ => [pad]; from_bytes := fun _ => Some tt }.
(** std::int32_t; U1Symmetry, symmetry.hpp:222-223 *)
#[global] Instance Plain_int : Plain Z := {
  size_of := 4; to_bytes := fun _ z => little 4 z; from_bytes := fun l => Some (signed 4 l) }.
(** std::int16_t; FermiSymmetry, symmetry.hpp:247-248 *)
#[global] Instance Plain_fermi : Plain fermi16 := {
  size_of := 2; to_bytes := fun _ f => little 2 (fermi_z f); from_bytes := fun l => Some (to_fermi (signed 2 l)) }.
(** FermiZ2Symmetry, symmetry.hpp:272-274: two bytes, one byte, one byte of padding *)
#[global] Instance Plain_fermi_z2 : Plain (fermi16 * bool) := {
  size_of := 4; to_bytes := fun pad x => to_bytes pad (fst x) ++ to_bytes pad (snd x) ++ [pad];
  from_bytes := fun l => match from_bytes (firstn 2 l), from_bytes (firstn 1 (skipn 2 l)) with Some f, Some z => Some (f, z) | _, _ => None end }.
(** FermiU1Symmetry, symmetry.hpp:299-301: two bytes, two bytes of padding, four bytes *)
#[global] Instance Plain_fermi_u1 : Plain (fermi16 * Z) := {
  size_of := 8; to_bytes := fun pad x => to_bytes pad (fst x) ++ [pad; pad] ++ to_bytes pad (snd x);
  from_bytes := fun l => match from_bytes (firstn 2 l), from_bytes (skipn 4 l) with Some f, Some z => Some (f, z) | _, _ => None end }.

(** an object holding a value *)
Definition holding {A} {PA : Plain A} (pad : Z) (a : A) : memory := map Some (to_bytes pad a).
Definition unwritten (A : Type) {PA : Plain A} : memory := repeat None (@size_of A PA).

Section Containers.
  Variable pad : Z.
  (** Size count; in > count; *)
  Definition read_count : reader nat := read_plain (unwritten nat).
  Definition write_count (n : nat) : bytes := to_bytes pad n.

  Fixpoint cut_pieces {A} (n width : nat) (l : list A) : list (list A) :=
    match n with O => [] | S n => firstn width l :: cut_pieces n width (skipn width l) end.

  (** std::vector of objects written as they are, 251-256 and 268-275; resize fills with [initial] *)
  Definition write_vector {A} {PA : Plain A} (l : list A) : bytes := write_count (length l) ++ concat (map (to_bytes pad) l).
  Definition read_vector {A} {PA : Plain A} (initial : A) : reader (list A) := fun s =>
    bind (read_count s) (fun ns =>
    let (n, s) := ns in
    let (m, s) := read (concat (repeat (holding pad initial) n)) s in
    bind (mapM (fun p => get_or_ub (value_of_memory p)) (cut_pieces n size_of m)) (fun l => Ok (l, s))).

  (** n times the same *)
  Fixpoint repeatM {St} (n : nat) (f : St -> res St) (st : St) : res St :=
    match n with O => Ok st | S n => bind (f st) (repeatM n f) end.

  (** std::vector of anything else, 257-265 and 276-285 *)
  Definition write_list {A} (write : A -> res bytes) (l : list A) : res bytes :=
    bind (mapM write l) (fun bs => Ok (write_count (length l) ++ concat bs)).
  Definition read_list {A} (rd : reader A) : reader (list A) := fun s =>
    bind (read_count s) (fun ns =>
    repeatM (fst ns) (fun st => bind (rd (snd st)) (fun r => Ok (fst st ++ [fst r], snd r))) ([], snd ns)).

  (** std::map, 179-200.  [read_value]: the reader for the mapped value, given what operator[] found (None: a new value) *)
  Definition write_map {K V} (write_key : K -> bytes) (write_value : V -> bytes) (m : list (K * V)) : bytes :=
    write_count (length m) ++ concat (map (fun kv => write_key (fst kv) ++ write_value (snd kv)) m).
  Definition read_map {K V} {OK : Ord K} (read_key : reader K) (read_value : option V -> reader V) : reader (list (K * V)) := fun s =>
    bind (read_count s) (fun ns =>
    repeatM (fst ns) (fun st =>
      bind (read_key (snd st)) (fun ks =>
      bind (read_value (mfind (fst ks) (fst st)) (snd ks)) (fun vs =>
      Ok (mset (fst ks) (fst vs) (fst st), snd vs)))) ([], snd ns)).
  (** a Size in a map: operator[] creates 0 *)
  Definition read_mapped_size (old : option nat) : reader nat :=
    read_plain (holding pad match old with Some n => n | None => 0 end).
End Containers.

(** std::string, 141-153; resize fills with zero bytes.  Characters are unsigned here *)
Definition write_string (pad : Z) (t : text) : bytes := write_count pad (length t) ++ map Z.of_nat t.
Definition read_string : reader text := fun s =>
  bind (read_count s) (fun ns =>
  let (m, s) := read (repeat (Some 0%Z) (fst ns)) (snd ns) in
  bind (get_or_ub (known m)) (fun l => Ok (map Z.to_nat l, s))).

(** the two kinds of names, 155-169 *)
Class NameIO : Type := { write_names : Z -> list name -> bytes; read_names : Z -> reader (list name) }.
(** FastName: a class with one int (name.hpp:71-89), trivially destructible, hence written as it is; a negative id is outside of the model *)
Definition fast_name_io : NameIO := {|
  write_names := fun pad l => write_vector pad (map Z.of_nat l);
  read_names := fun pad s => bind (read_vector pad 0%Z s) (fun ls =>
    bind (mapM (fun z => if (z <? 0)%Z then UB else Ok (Z.to_nat z)) (fst ls)) (fun l => Ok (l, snd ls))) |}.
(** std::string as name: [text_of] gives the string a name of the model stands for *)
Definition string_name_io (text_of : name -> text) (name_of : text -> name) : NameIO := {|
  write_names := fun pad l => write_count pad (length l) ++ concat (map (fun n => write_string pad (text_of n)) l);
  read_names := fun _ s => bind (read_list read_string s) (fun ls => Ok (map name_of (fst ls), snd ls)) |}.

(** scalars: [width] bytes; a scalar with bytes that have not been written is [junk] *)
Class ScalarIO (R : Type) : Type := { width : nat; scalar_bytes : R -> bytes; scalar_of : bytes -> R }.

Section Tensors.
  Context {S R : Type} {SS : Sym S} {PS : Plain S} {RIO : ScalarIO R} {NIO : NameIO}.
  Variables (pad : Z) (junk : R).

  (** vector<ScalarType>: resize leaves the elements unwritten, core.hpp:38-98 *)
  Definition write_scalars (l : list R) : bytes := write_count pad (length l) ++ concat (map scalar_bytes l).
  Definition read_scalars : reader (list R) := fun s =>
    bind (read_count s) (fun ns =>
    let (n, s) := ns in
    let (m, s) := read (repeat None (n * width)) s in
    Ok (map (fun p => match known p with Some l => scalar_of l | None => junk end) (cut_pieces n width m), s)).

  (** Edge, 344-368; a new edge has arrow = false and an empty map (edge.hpp:124, 178-179) *)
  Definition write_edge (e : edge S) : res bytes :=
    if is_nosym then bind (get_or_ub (hd_error (emap e))) (fun sd => Ok (to_bytes pad (snd sd)))
    else Ok ((if is_fermi then to_bytes pad (earrow e) else []) ++ write_map pad (to_bytes pad) (to_bytes pad) (emap e)).
  Definition read_edge : reader (edge S) := fun s =>
    if is_nosym then bind (read_mapped_size pad None s) (fun ds => Ok (mkEdge false [(szero, fst ds)], snd ds))
    else
    bind (if is_fermi then read_plain (holding pad false) s else Ok (false, s)) (fun a =>
    bind (read_map (read_plain (holding pad szero)) (read_mapped_size pad) (snd a)) (fun m => Ok (mkEdge (fst a) (fst m), snd m))).

  (** meta_put and data_put, 564-579 *)
  Definition write_data (blocks : list (list S * list R)) : res bytes :=
    if is_nosym then bind (get_or_ub (hd_error blocks)) (fun kb => Ok (write_scalars (snd kb)))
    else Ok (write_map pad (write_vector pad) write_scalars blocks).
  Definition dump_tensor (t : tensor S R) : res bytes :=
    bind (write_list pad write_edge (t_edges t)) (fun es =>
    bind (write_data (t_blocks t)) (fun d => Ok (write_names pad (t_names t) ++ es ++ d))).

  (** meta_get and data_get, 611-636; what the tensor was before does not matter *)
  Definition read_data (rank : nat) : reader (list (list S * list R)) := fun s =>
    if is_nosym then bind (read_scalars s) (fun b => Ok ([(repeat szero rank, fst b)], snd b))
    else read_map (read_vector pad szero) (fun _ => read_scalars) s.
  Definition load_tensor : reader (tensor S R) := fun s =>
    bind (read_names pad s) (fun ns =>
    bind (read_list read_edge (snd ns)) (fun es =>
    bind (check_valid_name (fst ns) (length (fst es))) (fun _ =>
    bind (read_data (length (fst ns)) (snd es)) (fun bs =>
    Ok (mkTensor (fst ns) (mkCore (fst es) (fst bs)), snd bs))))).
  (** Tensor::load(string), 638-643: the state of the stream is not looked at *)
  Definition load_string (input : bytes) : res (tensor S R) := bind (load_tensor (input, true)) (fun ts => Ok (fst ts)).

  (** Singular, 594-609 and 645-661 *)
  Definition dump_singular (value : list (S * list R)) : res bytes :=
    if is_nosym then bind (get_or_ub (hd_error value)) (fun kv => Ok (write_scalars (snd kv)))
    else Ok (write_map pad (to_bytes pad) write_scalars value).
  Definition load_singular : reader (list (S * list R)) := fun s =>
    if is_nosym then bind (read_scalars s) (fun b => Ok ([(szero, fst b)], snd b))
    else read_map (read_plain (holding pad szero)) (fun _ => read_scalars) s.
End Tensors.

(** the table of names, 663-684 *)
Definition write_table (pad : Z) (ds : dataset) : bytes := write_count pad (length (dump_table ds)) ++ concat (map (write_string pad) (dump_table ds)).
Definition read_table : reader dataset := fun s => bind (read_list read_string s) (fun ls => Ok (load_table (fst ls), snd ls)).

(** AbstractLattice, include/square/abstract_lattice.hpp:33-128.  A shared_ptr is the number of its object in the heap. *)
Section Lattice.
  Context {S R : Type} {SS : Sym S} {PS : Plain S} {RIO : ScalarIO R} {NIO : NameIO}.
  Variables (pad : Z) (junk : R).
  (** std::tuple<int, int>: libstdc++ stores the last component first *)
  #[global] Instance Plain_site : Plain (Z * Z) := {
    size_of := 8; to_bytes := fun pad p => to_bytes pad (snd p) ++ to_bytes pad (fst p);
    from_bytes := fun l => match from_bytes (skipn 4 l), from_bytes (firstn 4 l) with Some x, Some y => Some (x, y) | _, _ => None end }.

  Record lattice := mkLattice { l_m : Z; l_n : Z; l_d : nat; hamiltonians : list (list (Z * Z) * nat) }.
  Definition heap : Type := list (tensor S R).

  Fixpoint find_index (x : nat) (l : list nat) : option nat :=
    match l with
    | [] => None
    | y :: l => if Nat.eqb x y then Some 0 else match find_index x l with Some i => Some (Datatypes.S i) | None => None end
    end.
  (** 80-90: the pool of objects and the index of each term's object *)
  Definition pool_step (st : list nat * list (list (Z * Z) * Z)) (h : list (Z * Z) * nat) : list nat * list (list (Z * Z) * Z) :=
    let (pool, m) := st in
    match find_index (snd h) pool with
    | Some i => (pool, mset (fst h) (Z.of_nat i) m)
    | None => (pool ++ [snd h], mset (fst h) (Z.of_nat (length pool)) m)
    end.
  Definition pool_of (hs : list (list (Z * Z) * nat)) : list nat * list (list (Z * Z) * Z) := fold_left pool_step hs ([], []).

  (** operator<, 75-103; dereferencing an empty pointer is undefined *)
  Definition dump_lattice (hp : heap) (l : lattice) : res bytes :=
    let (pool, pool_map) := pool_of (hamiltonians l) in
    bind (mapM (fun p => bind (get_or_ub (nth_error hp p)) (dump_tensor pad)) pool) (fun ts =>
    Ok (to_bytes pad (l_m l) ++ to_bytes pad (l_n l) ++ to_bytes pad (l_d l)
        ++ write_count pad (length pool) ++ concat ts
        ++ write_map pad (write_vector pad) (to_bytes pad) pool_map)).

  (** operator>, 105-128: into the lattice [l]; every loaded tensor is a new object.  pool[index] is unchecked; the loop counters are int:
      2^31 entries and more are outside of the model *)
  Definition load_lattice (hp : heap) (l : lattice) : reader (heap * lattice) := fun s =>
    bind (read_plain (holding pad (l_m l)) s) (fun m =>
    bind (read_plain (holding pad (l_n l)) (snd m)) (fun n =>
    bind (read_plain (holding pad (l_d l)) (snd n)) (fun d =>
    bind (read_list (load_tensor pad junk) (snd d)) (fun ts =>
    let pool := seq (length hp) (length (fst ts)) in
    bind (read_count (snd ts)) (fun k =>
    bind (repeatM (fst k) (fun st =>
            bind (read_vector pad (0%Z, 0%Z) (snd st)) (fun ps =>
            bind (read_plain (unwritten Z) (snd ps)) (fun i =>
            bind (if (fst i <? 0)%Z then UB else get_or_ub (nth_error pool (Z.to_nat (fst i)))) (fun p =>
            Ok (mset (fst ps) p (fst st), snd i))))) ([], snd k)) (fun hs =>
    Ok ((hp ++ fst ts, mkLattice (fst m) (fst n) (fst d) (fst hs)), snd hs))))))).
End Lattice.
