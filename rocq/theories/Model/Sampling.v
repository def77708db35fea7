(** Sampling of spin configurations.  include/square/sampling_gradient_lattice.hpp.
    Scalars (V) are abstract: exact arithmetic in place of floating point.  [amplitude]: the contraction of the network whose tensors are cut at
    the given spins, spin(); the lazy contraction and its hint only choose a way to compute it.  Random numbers are drawn by an ideal generator. *)
From Coq Require Import String List Bool Arith ZArith Reals.
From Verif Require Import Base.Outcome Base.SMap Model.Symmetry Model.Schedule Model.Lazy Model.Mpi Model.SimpleUpdate.
Import ListNotations.
Open Scope Z_scope.

(** SpinConfiguration::configuration, 31 *)
Definition configuration : Type := list (list Z).
Definition get_spin (c : configuration) (p : site) : res Z := get_or_ub (lookup (fst p) (snd p) c).
(** SpinConfiguration::set, 55-69 (the tensor kept beside the spin is the one cut at that spin) *)
Definition set_spin (c : configuration) (p : site) (s : Z) : res configuration :=
  bind (get_spin c p) (fun old => Ok (if old =? s then c else store (fst p) (snd p) s c)).

(** the double loop over the sites *)
Definition cells (M N : Z) : list site := flat_map (fun i => map (fun j => (i, j)) (upto N)) (upto M).
(** _ergodic_spin, 343-350.  step: std::uint64_t; d: dimension_physics; a spin above the largest int is not modelled *)
Definition ergodic_spin (M N d step : Z) (c : configuration) : res configuration :=
  bind (foldM (fun (sc : Z * configuration) p =>
    let (step, c) := sc in
    if d =? 0 then UB else bind (set_spin c p (Z.modulo step d)) (fun c => Ok (Z.div step d, c))) (cells M N) (step, c))
  (fun sc => Ok (snd sc)).

Section Operators.
  Context {V : Type}.
  Variable is_zero : V -> bool.
  (** an operator: number of sites it acts on, and tensor.const_at at the indices of I0, I1, ..., O0, O1, ... *)
  Record operator := mkOperator { body : nat; element : list Z -> res V }.
  (** std::map<std::vector<int>, std::map<std::vector<int>, T>> *)
  Definition elements : Type := list (list Z * list (list Z * V)).
  Definition row_of (ins : list Z) (m : elements) : list (list Z * V) := match mfind ins m with Some row => row | None => [] end.
  (** the step to the next index, 495-504 *)
  Fixpoint next_index (d : Z) (index : list Z) : option (list Z) :=
    match index with
    | [] => None
    | i :: index => if i + 1 =? d then option_map (cons 0) (next_index d index) else Some (i + 1 :: index)
    end.
  (** 493 *)
  Definition record_all (ins outs : list Z) (v : V) (m : elements) : elements := mset ins (mset outs v (row_of ins m)) m.
  (** 542-546 *)
  Definition record_hopping (ins outs : list Z) (v : V) (m : elements) : elements :=
    if eqb ins outs then mset ins (row_of ins m) m else mset ins (mset outs v (row_of ins m)) m.
  (** the loop of _find_element, 478-505, and of _find_hopping_element, 527-558 *)
  Fixpoint find_loop (record : list Z -> list Z -> V -> elements -> elements) (d : Z) (op : operator) (fuel : nat) (index : list Z) (m : elements) : res elements :=
    match fuel with
    | O => OutOfFuel
    | S fuel =>
        bind (element op index) (fun v =>
        let m := if is_zero v then m else record (firstn (body op) index) (skipn (body op) index) v m in
        match next_index d index with
        | Some index => find_loop record d op fuel index m
        | None => Ok m
        end)
    end.
  (** without sites the first step to the next index writes to an empty vector *)
  Definition find_with (record : list Z -> list Z -> V -> elements -> elements) (d : Z) (op : operator) : res elements :=
    match body op with
    | O => bind (element op []) (fun _ => UB)
    | S _ => find_loop record d op (Z.to_nat d ^ (2 * body op)) (repeat 0 (2 * body op)%nat) []
    end.
  (** _find_element, 461-506, _find_hopping_element, 510-559, when the tensor is not in the cache *)
  Definition find_element : Z -> operator -> res elements := find_with record_all.
  Definition find_hopping : Z -> operator -> res elements := find_with record_hopping.
  (** with the cache, a static map from the address of the tensor, 459-465, 508-514 (the entry left behind by an exception is not modelled) *)
  Definition cached (find : Z -> operator -> res elements) (d : Z) (address : nat) (op : operator) (cache : list (nat * elements)) : res (elements * list (nat * elements)) :=
    match mfind address cache with
    | Some m => Ok (m, cache)
    | None => bind (find d op) (fun m => Ok (m, mset address m cache))
    end.
  (** a sequence of requests: address, dimension of the lattice asking, tensor at the address *)
  Fixpoint requests (find : Z -> operator -> res elements) (history : list (nat * Z * operator)) (cache : list (nat * elements)) : res (list elements) :=
    match history with
    | [] => Ok []
    | (address, d, op) :: history => bind (cached find d address op cache) (fun mc => bind (requests find history (snd mc)) (fun ms => Ok (fst mc :: ms)))
    end.

  Variable amplitude : configuration -> V.
  (** positions[i] with spins[i]: 206-208, 301-302, 442-444 *)
  Fixpoint replacement (ps : positions) (spins : list Z) (m : list (site * Z)) : res (list (site * Z)) :=
    match ps, spins with
    | [], _ => Ok m
    | p :: ps, s :: spins => replacement ps spins (mset p s m)
    | _ :: _, [] => UB
    end.
  (** SpinConfiguration::operator()(replacement, ws, hint), 71-84 *)
  Definition replaced (c : configuration) (m : list (site * Z)) (ws : V) : res V :=
    bind (foldM (fun (l : list (site * Z)) (ps : site * Z) => bind (get_spin c (fst ps)) (fun old => Ok (if old =? snd ps then l else mset (fst ps) (snd ps) l))) m []) (fun changed =>
    match changed with
    | [] => Ok ws
    | _ => bind (foldM (fun c (ps : site * Z) => set_spin c (fst ps) (snd ps)) changed c) (fun c' => Ok (amplitude c'))
    end).

  (** the value of an observer at a configuration, 197-216, 290-305.  times, over, plus: the arithmetic of T and real<T>; part: scalar_to<real<T>>.
      A division by a zero amplitude gives no number: None *)
  Context {W : Type}.
  Variables (over : V -> V -> V) (times : V -> V -> V) (part : V -> W) (plus : W -> W -> W) (zero : W).
  Definition observe (d : Z) (ps : positions) (op : operator) (c : configuration) (ws : V) : res (option W) :=
    bind (mapM (get_spin c) ps) (fun current =>
    bind (find_element d op) (fun es =>
    bind (at_or_throw (mfind current es)) (fun row =>
    foldM (fun (value : option W) (oe : list Z * V) =>
      bind (replacement ps (fst oe) []) (fun m =>
      bind (replaced c m ws) (fun wss =>
      Ok (match value with Some value => if is_zero ws then None else Some (plus value (part (over (times (snd oe) wss) ws))) | None => None end))))
    row (Some zero)))).
End Operators.
Arguments operator : clear implicits.
Arguments elements : clear implicits.

(** ergodic, 282-326, for one observer: the sums over all configurations and the final division.  weight: std::norm(ws) *)
Section Ergodic.
  Context {V W : Type}.
  Variables (is_zero : V -> bool) (amplitude : configuration -> V) (over times : V -> V -> V) (part : V -> W).
  Variables (weight : V -> W) (plus mult divide : W -> W -> W) (zero : W).
  Definition ergodic_step (M N d : Z) (ps : positions) (op : operator V) (state : configuration * option W * W) (step : Z) : res (configuration * option W * W) :=
    let '(c, result, norm) := state in
    bind (ergodic_spin M N d step c) (fun c =>
    let ws := amplitude c in
    bind (observe is_zero amplitude over times part plus zero d ps op c ws) (fun value =>
    Ok (c, match result, value with Some r, Some v => Some (plus r (mult v (weight ws))) | _, _ => None end, plus norm (weight ws)))).
  Definition ergodic (M N d : Z) (ps : positions) (op : operator V) (c : configuration) : res (option W) :=
    bind (foldM (ergodic_step M N d ps op) (upto (Z.pow d (M * N))) (c, Some zero, zero)) (fun state =>
    let '(_, result, norm) := state in Ok (match result with Some r => Some (divide r norm) | None => None end)).
End Ergodic.

(** programs that draw random numbers: a uniform number below n, and a uniform real number compared with p *)
Inductive rand (A : Type) :=
| Ret (r : res A)
| Draw (n : nat) (k : nat -> rand A)
| Accept (p : R) (k : bool -> rand A).
Arguments Ret {A}. Arguments Draw {A}. Arguments Accept {A}.
Fixpoint rbind {A B} (m : rand A) (f : A -> rand B) : rand B :=
  match m with
  | Ret (Ok a) => f a
  | Ret (Throw e) => Ret (Throw e)
  | Ret UB => Ret UB
  | Ret OutOfFuel => Ret OutOfFuel
  | Draw n k => Draw n (fun i => rbind (k i) f)
  | Accept p k => Accept p (fun b => rbind (k b) f)
  end.

Section Markov.
  Context {V : Type}.
  Variables (is_zero : V -> bool) (amplitude : configuration -> V) (over : V -> V -> V) (norm : V -> R).
  (** norm(wss / ws) * n / n_s, 447-448.  Where a divisor is zero: not a number, never above the drawn number (0 here), or infinity, always above (1) *)
  Definition acceptance (ws wss : V) (n n_s : nat) : R :=
    if is_zero ws then (if is_zero wss then 0 else 1)%R
    else if is_zero wss then 0%R
    else if Nat.eqb n_s 0 then 1%R
    else (norm (over wss ws) * INR n / INR n_s)%R.
  (** _markov_single_term, 416-457 *)
  Definition markov_term (d : Z) (ps : positions) (op : operator V) (state : configuration * V) : rand (configuration * V) :=
    let (c, ws) := state in
    rbind (Ret (bind (mapM (get_spin c) ps) (fun current => bind (find_hopping is_zero d op) (fun es => bind (at_or_throw (mfind current es)) (fun row => Ok (es, row)))))) (fun er =>
    let (es, row) := er in
    match row with
    | [] => Ret (Ok (c, ws))
    | _ => Draw (length row) (fun index =>
        rbind (Ret (bind (get_or_ub (nth_error row index)) (fun oe => bind (replacement ps (fst oe) []) (fun m => bind (replaced amplitude c m ws) (fun wss =>
          bind (at_or_throw (mfind (fst oe) es)) (fun row_s => Ok (fst oe, wss, length row_s))))))) (fun snw =>
        let '(spins_new, wss, n_s) := snw in
        Accept (acceptance ws wss (length row) n_s) (fun accepted =>
          if accepted then Ret (bind (foldM (fun c (ps : site * Z) => set_spin c (fst ps) (snd ps)) (combine ps spins_new) c) (fun c => Ok (c, wss)))
          else Ret (Ok (c, ws)))))
    end).
  (** _markov_spin, 368-380 *)
  Fixpoint markov_terms (d : Z) (hamiltonians : list (positions * operator V)) (l : list positions) (state : configuration * V) : rand (configuration * V) :=
    match l with
    | [] => Ret (Ok state)
    | ps :: l => rbind (rbind (Ret (at_or_throw (mfind ps hamiltonians))) (fun op => markov_term d ps op state)) (markov_terms d hamiltonians l)
    end.
  Definition markov_spin (d : Z) (hamiltonians : list (positions * operator V)) (sequence : list positions) (state : configuration * V) : rand (configuration * V) :=
    rbind (markov_terms d hamiltonians sequence state) (markov_terms d hamiltonians (rev sequence)).
  (** equilibrate, 352-366: the sweeps from step number 1 to total *)
  Fixpoint markov_sweeps (d : Z) (hamiltonians : list (positions * operator V)) (sequence : list positions) (total : nat) (state : configuration * V) : rand (configuration * V) :=
    match total with
    | O => Ret (Ok state)
    | S total => rbind (markov_spin d hamiltonians sequence state) (markov_sweeps d hamiltonians sequence total)
    end.
  Definition equilibrate (d : Z) (hamiltonians : list (positions * operator V)) (sequence : list positions) (total : nat) (c : configuration) : rand (configuration * V) :=
    markov_sweeps d hamiltonians sequence total (c, amplitude c).
  (** markov, 153-280, the mean of one observer (the variances: Statistics.v, the gradient: Spins.v).  No step: there is no entry for the observer *)
  Variables (times : V -> V -> V) (part : V -> R).
  Fixpoint markov_loop (d : Z) (hamiltonians : list (positions * operator V)) (sequence : list positions) (ps : positions) (op : operator V) (total : nat) (state : configuration * V) (result : option R) : rand (option R) :=
    match total with
    | O => Ret (Ok result)
    | S total =>
        rbind (markov_spin d hamiltonians sequence state) (fun state =>
        rbind (Ret (observe is_zero amplitude over times part Rplus 0%R d ps op (fst state) (snd state))) (fun value =>
        markov_loop d hamiltonians sequence ps op total state (match result, value with Some r, Some v => Some (r + v)%R | _, _ => None end)))
    end.
  Definition markov (d : Z) (hamiltonians : list (positions * operator V)) (sequence : list positions) (ps : positions) (op : operator V) (total : nat) (c : configuration) : rand (option R) :=
    rbind (markov_loop d hamiltonians sequence ps op total (c, amplitude c) (Some 0%R)) (fun result =>
    Ret (Ok (match total, result with S _, Some r => Some (r / INR total)%R | _, _ => None end))).
End Markov.
