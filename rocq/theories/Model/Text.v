(** Text input and output.  include/TAT/io.hpp:35-90, 110-140, 202-249, 289-342, 370-545.
    A character is a number from 0 to 255, [lit] writes them as a string.  Streams have the default flags and the C locale; the members of
    std::istream behave as in libstdc++.  Loops without a bound in the code have a fuel. *)
From Coq Require Import String Ascii.
From Coq Require Import List Bool Arith ZArith Decimal.
From Verif Require Import Base.Outcome Base.SMap Model.Symmetry Model.Edge Model.Core Model.Names.
Import ListNotations.

Definition lit (s : string) : text := map nat_of_ascii (list_ascii_of_string s).
Definition is (c : nat) (o : option nat) : bool := match o with Some d => Nat.eqb c d | None => false end.
Definition comma := 44. Definition colon := 58. Definition open_list := 91. Definition close_list := 93.
Definition open_map := 123. Definition close_map := 125. Definition open_pair := 40. Definition close_pair := 41.
Definition escape := 27. Definition plus := 43. Definition minus := 45. Definition imaginary := 105.

(** std::istream: what is left, eofbit, failbit *)
Record input := mkIn { left_over : text; at_eof : bool; failed : bool }.
Definition good (s : input) : bool := negb (at_eof s) && negb (failed s).
Definition fail (s : input) : input := mkIn (left_over s) (at_eof s) true.
Definition scanner (A : Type) : Type := input -> res (A * input).

Fixpoint behind (c : nat) (l : text) : option text :=
  match l with [] => None | d :: l => if Nat.eqb c d then Some l else behind c l end.
(** ignore_util, 61-63; an unformatted input function on a stream that is not good() sets failbit *)
Definition ignore (c : nat) (s : input) : input :=
  if good s then match behind c (left_over s) with Some l => mkIn l false false | None => mkIn [] true false end else fail s.
(** istream::peek *)
Definition peek (s : input) : option nat * input :=
  if good s then match left_over s with c :: _ => (Some c, s) | [] => (None, mkIn [] true false) end else (None, fail s).
(** istream::get *)
Definition get (s : input) : option nat * input :=
  if good s then match left_over s with c :: l => (Some c, mkIn l false false) | [] => (None, mkIn [] true true) end else (None, fail s).

(** ** integers, std::num_put and std::num_get *)
Fixpoint uint_text (u : uint) : text :=
  match u with
  | Nil => []
  | D0 u => 48 :: uint_text u | D1 u => 49 :: uint_text u | D2 u => 50 :: uint_text u | D3 u => 51 :: uint_text u | D4 u => 52 :: uint_text u
  | D5 u => 53 :: uint_text u | D6 u => 54 :: uint_text u | D7 u => 55 :: uint_text u | D8 u => 56 :: uint_text u | D9 u => 57 :: uint_text u
  end.
Definition print_integer (z : Z) : text := match Z.to_int z with Decimal.Pos u => uint_text u | Decimal.Neg u => minus :: uint_text u end.
Definition print_size (n : nat) : text := print_integer (Z.of_nat n).
Definition print_bool (b : bool) : text := if b then lit "1" else lit "0".

Definition digit (c : nat) (u : uint) : option uint :=
  match c with
  | 48 => Some (D0 u) | 49 => Some (D1 u) | 50 => Some (D2 u) | 51 => Some (D3 u) | 52 => Some (D4 u)
  | 53 => Some (D5 u) | 54 => Some (D6 u) | 55 => Some (D7 u) | 56 => Some (D8 u) | 57 => Some (D9 u)
  | _ => None
  end.
Definition is_digit (c : nat) : bool := match digit c Nil with Some _ => true | None => false end.
(** the digits at the front *)
Fixpoint take_digits (l : text) : uint * text :=
  match l with
  | [] => (Nil, [])
  | c :: l' => let (u, r) := take_digits l' in match digit c u with Some u' => (u', r) | None => (Nil, l) end
  end.
(** the number at the front; None: there is none *)
Definition take_integer (l : text) : option Z * text :=
  let (negative, l1) := match l with c :: l' => if Nat.eqb c minus then (true, l') else if Nat.eqb c plus then (false, l') else (false, l) | [] => (false, l) end in
  let (u, r) := take_digits l1 in
  (match u with Nil => None | _ => Some (if negative then - Z.of_uint u else Z.of_uint u)%Z end, r).
Definition is_space (c : nat) : bool := Nat.eqb c 32 || (Nat.leb 9 c && Nat.leb c 13).
Fixpoint skip_spaces (l : text) : text := match l with c :: l' => if is_space c then skip_spaces l' else l | [] => [] end.
(** in >> data: [convert] gives the stored value and whether the conversion succeeded.  Without a good stream, or with nothing but space left,
    the variable keeps its value [old] *)
Definition scan_number {A} (convert : option Z -> A * bool) (old : A) : scanner A := fun s =>
  if good s then
    match skip_spaces (left_over s) with
    | [] => Ok (old, mkIn [] true true)
    | l => let (v, r) := take_integer l in
           let (a, ok) := convert v in
           Ok (a, mkIn r (match r with [] => true | _ => false end) (negb ok))
    end
  else Ok (old, fail s).
(** signed integers of the given number of bits: the nearest value and failure if out of range *)
Definition to_signed (bits : Z) (v : option Z) : Z * bool :=
  match v with
  | None => (0, false)
  | Some z => if z <? - 2 ^ (bits - 1) then (- 2 ^ (bits - 1), false) else if 2 ^ (bits - 1) <=? z then (2 ^ (bits - 1) - 1, false) else (z, true)
  end%Z.
(** std::uint64_t: a negative number wraps around *)
Definition to_size (v : option Z) : nat * bool :=
  match v with
  | None => (0, false)
  | Some z => if (2 ^ 64 <=? Z.abs z)%Z then (Z.to_nat (2 ^ 64 - 1), false) else (Z.to_nat (z mod 2 ^ 64), true)
  end.
(** bool without boolalpha *)
Definition to_bool (v : option Z) : bool * bool :=
  match v with None => (false, false) | Some 0%Z => (false, true) | Some 1%Z => (true, true) | Some _ => (true, false) end.
Definition scan_size (old : nat) : scanner nat := scan_number to_size old.
Definition scan_bool (old : bool) : scanner bool := scan_number to_bool old.
Definition scan_int (old : Z) : scanner Z := scan_number (to_signed 32) old.
Definition scan_short (old : fermi16) : scanner fermi16 :=
  scan_number (fun v => let (z, ok) := to_signed 16 v in (to_fermi z, ok)) old.

(** ** charges, 370-431; a variable of type Symmetry starts as zero *)
Class SymText (S : Type) : Type := { print_charge : S -> text; scan_charge : scanner S }.
#[global] Instance SymText_No : SymText unit := { print_charge := fun _ => []; scan_charge := fun s => Ok (tt, s) }.
#[global] Instance SymText_Z2 : SymText bool := { print_charge := print_bool; scan_charge := scan_bool false }.
#[global] Instance SymText_U1 : SymText Z := { print_charge := print_integer; scan_charge := scan_int 0 }.
Definition print_short (f : fermi16) : text := print_integer (fermi_z f).
#[global] Instance SymText_Fermi : SymText fermi16 := { print_charge := print_short; scan_charge := scan_short (to_fermi 0) }.
Definition print_pair {A} (print : A -> text) (x : fermi16 * A) : text := open_pair :: print_short (fst x) ++ comma :: print (snd x) ++ [close_pair].
Definition scan_pair {A} (scan : scanner A) : scanner (fermi16 * A) := fun s =>
  bind (scan_short (to_fermi 0) (ignore open_pair s)) (fun f =>
  bind (scan (ignore comma (snd f))) (fun z => Ok ((fst f, fst z), ignore close_pair (snd z)))).
#[global] Instance SymText_FermiZ2 : SymText (fermi16 * bool) := { print_charge := print_pair print_bool; scan_charge := scan_pair (scan_bool false) }.
#[global] Instance SymText_FermiU1 : SymText (fermi16 * Z) := { print_charge := print_pair print_integer; scan_charge := scan_pair (scan_int 0) }.

(** ** scalars: a codec of the floating point library; [scan_scalar old] leaves [old] if nothing can be read *)
Class ScalarText (R : Type) : Type := { print_scalar : R -> text; scan_scalar : R -> scanner R }.

(** real numbers with what the code for complex ones asks *)
Class RealText (F : Type) : Type := {
  real_text :> ScalarText F; real_zero : F; is_zero : F -> bool; is_positive : F -> bool }.
(** print_complex, 35-53 *)
Definition print_complex {F} {FT : RealText F} (v : F * F) : text :=
  let (re, im) := v in
  if negb (is_zero re) then
    print_scalar re ++ (if negb (is_zero im) then (if is_positive im then [plus] else []) ++ print_scalar im ++ [imaginary] else [])
  else if is_zero im then lit "0" else print_scalar im ++ [imaginary].
(** scan_complex, 65-90; [junk]: an uninitialised variable *)
Definition scan_complex {F} {FT : RealText F} (junk : F) : scanner (F * F) := fun s =>
  bind (scan_scalar junk s) (fun p =>
  let (c, s1) := peek (snd p) in
  if is imaginary c then Ok ((real_zero, fst p), snd (get s1))
  else if is plus c || is minus c then
    bind (scan_scalar junk s1) (fun q =>
    let (d, s2) := get (snd q) in Ok ((fst p, fst q), if is imaginary d then s2 else fail s2))
  else Ok ((fst p, real_zero), s1)).
#[global] Instance ScalarText_complex (F : Type) {FT : RealText F} : ScalarText (F * F) := {
  print_scalar := print_complex; scan_scalar := fun old => scan_complex (fst old) }.

(** ** names, 113-140 *)
Definition valid_name_character (c : nat) : bool :=
  Nat.ltb 32 c && Nat.ltb c 127 && negb (Nat.eqb c comma) && negb (Nat.eqb c open_list) && negb (Nat.eqb c close_list).
Fixpoint take_name (l : text) : text * text :=
  match l with c :: l' => if valid_name_character c then let (n, r) := take_name l' in (c :: n, r) else ([], l) | [] => ([], []) end.
(** scan_string_for_name: a buffer of 256 characters, one of them for the end; peek at the end of the input sets eofbit *)
Definition scan_name : scanner text := fun s =>
  if good s then
    let (n, r) := take_name (left_over s) in
    if Nat.ltb 255 (length n) then UB else Ok (n, mkIn r (match r with [] => true | _ => false end) false)
  else Ok ([], fail s).

(** ** lists, 202-249 *)
Fixpoint join (ts : list text) : text :=
  match ts with [] => [] | [t] => t | t :: ts => t ++ comma :: join ts end.
Definition print_list {A} (print : A -> text) (l : list A) : text := open_list :: join (map print l) ++ [close_list].
Section Loops.
  Variable fuel : nat.
  Fixpoint list_loop {A} (fuel : nat) (item : scanner A) (done : list A) (s : input) : res (list A * input) :=
    match fuel with
    | O => OutOfFuel
    | S fuel =>
      bind (item s) (fun a =>
      let (next, s) := get (snd a) in
      if is close_list next then Ok (done ++ [fst a], s) else list_loop fuel item (done ++ [fst a]) s)
    end.
  Definition scan_list {A} (item : scanner A) : scanner (list A) := fun s =>
    let (c, s) := peek (ignore open_list s) in
    if is close_list c then Ok ([], snd (get s)) else list_loop fuel item [] s.

  (** maps, 298-308 and 325-336, 462-470 and 491-502: operator[] of a std::map, the old value is [find]ed *)
  Fixpoint map_loop {K V} {OK : Ord K} (fuel : nat) (key : scanner K) (value : option V -> scanner V) (done : list (K * V)) (s : input) : res (list (K * V) * input) :=
    match fuel with
    | O => OutOfFuel
    | S fuel =>
      bind (key s) (fun k =>
      bind (value (mfind (fst k) done) (ignore colon (snd k))) (fun v =>
      let (next, s) := get (snd v) in
      let done := mset (fst k) (fst v) done in
      if is comma next then map_loop fuel key value done s else Ok (done, s)))
    end.
  Definition scan_map {K V} {OK : Ord K} (key : scanner K) (value : option V -> scanner V) : scanner (list (K * V)) := fun s =>
    let (c, s) := peek (ignore open_map s) in
    if is close_map c then Ok ([], snd (get s)) else map_loop fuel key value [] s.
End Loops.
Definition print_map {K V} (key : K -> text) (value : V -> text) (m : list (K * V)) : text :=
  open_map :: join (map (fun kv => key (fst kv) ++ colon :: value (snd kv)) m) ++ [close_map].

(** colours, 429-441 *)
Definition console_green : text := escape :: lit "[32m".
Definition console_yellow : text := escape :: lit "[33m".
Definition console_origin : text := escape :: lit "[0m".

Section Tensors.
  Context {S R : Type} {SS : Sym S} {ST : SymText S} {RT : ScalarText R}.
  (** the colours around the charges of a block: console_yellow and console_origin in the code *)
  Variables (colour origin : text).
  Variable fuel : nat.
  (** what an element that has not been read is *)
  Variable junk : R.
  (** the string of a name; the names for the strings of a list, in the order of the list.  FastName: the table of names gets the new ones *)
  Variables (text_of : name -> res text) (intern : list text -> list name).

  (** Edge, 289-342; a new edge has arrow = false and an empty map *)
  Definition print_edge (e : edge S) : res text :=
    if is_nosym then bind (at_or_throw (mfind szero (emap e))) (fun d => Ok (print_size d))
    else
      let m := print_map print_charge print_size (emap e) in
      Ok (if is_fermi then lit "{arrow:" ++ print_bool (earrow e) ++ lit ",map:" ++ m ++ lit "}" else m).
  Definition scan_mapped_size (old : option nat) : scanner nat := scan_size match old with Some n => n | None => 0 end.
  Definition scan_edge : scanner (edge S) := fun s =>
    if is_nosym then bind (scan_mapped_size None s) (fun d => Ok (mkEdge false [(szero, fst d)], snd d))
    else
      bind (if is_fermi then scan_bool false (ignore colon s) else Ok (false, s)) (fun a =>
      bind (scan_map fuel scan_charge scan_mapped_size (snd a)) (fun m =>
      Ok (mkEdge (fst a) (fst m), if is_fermi then ignore close_map (snd m) else snd m))).

  Definition print_block : list R -> text := print_list print_scalar.
  (** emplace_back without value: the element is not initialised *)
  Definition scan_block : scanner (list R) := scan_list fuel (scan_scalar junk).

  (** Tensor, 452-505 *)
  Definition print_blocks (blocks : list (list S * list R)) : res text :=
    if is_nosym then bind (get_or_ub (hd_error blocks)) (fun kb => Ok (print_block (snd kb)))
    else Ok (print_map (fun key => colour ++ print_list print_charge key ++ origin) print_block blocks).
  Definition show_tensor (t : tensor S R) : res text :=
    let title s := console_green ++ lit s ++ console_origin ++ [colon] in
    bind (mapM text_of (t_names t)) (fun names =>
    bind (mapM print_edge (t_edges t)) (fun edges =>
    bind (print_blocks (t_blocks t)) (fun blocks =>
    Ok ([open_map] ++ title "names"%string ++ print_list (fun x => x) names ++ [comma] ++ title "edges"%string ++ print_list (fun x => x) edges ++ [comma]
        ++ title "blocks"%string ++ blocks ++ [close_map])))).
  Definition scan_blocks (rank : nat) : scanner (list (list S * list R)) := fun s =>
    if is_nosym then bind (scan_block s) (fun b => Ok ([(repeat szero rank, fst b)], snd b))
    else scan_map fuel (scan_list fuel scan_charge) (fun _ => scan_block) s.
  Definition scan_tensor : scanner (tensor S R) := fun s =>
    bind (scan_list fuel scan_name (ignore colon s)) (fun ns =>
    let names := intern (fst ns) in
    bind (scan_list fuel scan_edge (ignore colon (snd ns))) (fun es =>
    bind (check_valid_name names (length (fst es))) (fun _ =>
    bind (scan_blocks (length names) (ignore colon (snd es))) (fun bs =>
    Ok (mkTensor names (mkCore (fst es) (fst bs)), ignore close_map (snd bs)))))).

  (** Singular, 507-548 *)
  Definition show_singular (value : list (S * list R)) : res text :=
    if is_nosym then bind (get_or_ub (hd_error value)) (fun kv => Ok (print_block (snd kv)))
    else Ok (print_map (fun key => colour ++ print_charge key ++ origin) print_block value).
  Definition scan_singular : scanner (list (S * list R)) := fun s =>
    if is_nosym then bind (scan_block s) (fun b => Ok ([(szero, fst b)], snd b))
    else scan_map fuel scan_charge (fun _ => scan_block) s.
End Tensors.
