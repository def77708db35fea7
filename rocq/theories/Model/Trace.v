(** Tensor::trace: include/TAT/trace.hpp.  The argument is a set of pairs of names, given as the list of its elements in the
    order of iteration. *)
From Coq Require Import String List Bool Arith.
From Verif Require Import Base.Outcome Base.SMap Model.Symmetry Model.Edge Model.Core Model.EdgeOperator Model.Contract.
Import ListNotations.

Section Trace.
  Context {S R : Type} {SS : Sym S} {RR : Scalar R}.

  (** lines 49-58: the other name of the first pair with this name *)
  Fixpoint partner (pairs : list (name * name)) (n : name) : option name :=
    match pairs with
    | [] => None
    | (a, b) :: rest => if Nat.eqb a n then Some b else if Nat.eqb b n then Some a else partner rest n
    end.

  (** the variables of the loop of lines 43-80; valid_index is kept as the list of the indices set to false *)
  Record pairing := mkPairing { g_invalid : list nat; g_1 : list name; g_2 : list name; g_traced : list name }.
  Definition pair_step (t : tensor S R) (pairs : list (name * name)) (g : pairing) (i : nat) : res pairing :=
    if mem_name i (g_invalid g) then Ok g else
    bind (get_or_ub (nth_error (t_names t) i)) (fun n =>
    match partner pairs n with
    | None => Ok g
    | Some m =>
      bind (if is_fermi then bind (get_or_ub (nth_error (t_edges t) i)) (fun e => Ok (earrow e)) else Ok false) (fun arrow =>
      bind (at_or_throw (mfind m (construct_name_to_index (t_names t)))) (fun j =>
      Ok (if arrow : bool then mkPairing (j :: g_invalid g) (g_1 g ++ [n]) (g_2 g ++ [m]) (n :: m :: g_traced g)
          else mkPairing (j :: g_invalid g) (g_1 g ++ [m]) (g_2 g ++ [n]) (n :: m :: g_traced g))))
    end).
  Definition pair_legs (t : tensor S R) (pairs : list (name * name)) : res pairing :=
    foldM (pair_step t pairs) (rev (seq 0 (length (t_names t)))) (mkPairing [] [] [] []).

  (** lines 124-130: destination[j] += source[base + j] *)
  Definition add_line (source : list R) (base : nat) (dest : list R) : res (list R) :=
    mapM (fun jx => bind (get_or_ub (nth_error source (base + fst jx))) (fun v => Ok (radd (snd jx) v)))
         (combine (seq 0 (length dest)) dest).
  (** lines 118-131 for one charge *)
  Definition add_block (merged : tensor S R) (dest : list R) (sd : S * nat) : res (list R) :=
    let '(s, d) := sd in
    bind (at_or_throw (mfind [s; sneg s; szero] (t_blocks merged))) (fun source =>
    foldM (fun dest i => add_line source ((d + 1) * i * length dest) dest) (seq 0 d) dest).

  Definition trace (E : @env R) (I : internal) (t : tensor S R) (pairs : list (name * name)) : res (tensor S R) :=
    bind (pair_legs t pairs) (fun g =>
    (* lines 81-99 *)
    let free := filter (fun ne => negb (mem_name (fst ne) (g_traced g))) (combine (t_names t) (t_edges t)) in
    let names := map fst free in
    let reversed := if is_fermi then map fst (filter (fun ne => earrow (snd ne)) free) else [] in
    let T1 := i_trace_1 I in let T2 := i_trace_2 I in let T3 := i_trace_3 I in
    (* lines 100-110 *)
    bind (edge_operator E t (mkArgs [] [] reversed (of_list [(T1, g_1 g); (T2, g_2 g); (T3, names)]) [T1; T2; T3]
            false [] [] [] [T1] [])) (fun merged =>
    (* lines 112-115: the constructor leaves the data uninitialised, zero() writes it; begin() of a map without blocks is undefined *)
    bind (get_or_ub (nth_error (t_edges merged) 2)) (fun e3 =>
    bind (make_tensor (env_junk E) [T3] [e3] false) (fun traced =>
    let blocks := map (fun kb => (fst kb, map (fun _ => rzero) (snd kb))) (t_blocks traced) in
    bind (get_or_ub (hd_error blocks)) (fun first =>
    bind (get_or_ub (nth_error (t_edges merged) 0)) (fun e1 =>
    bind (foldM (add_block merged) (emap e1) (snd first)) (fun dest =>
    (* line 132 *)
    edge_operator E (mkTensor (t_names traced) (mkCore (t_edges traced) ((fst first, dest) :: tl blocks)))
      (mkArgs [] (of_list [(T3, map (fun ne => (fst ne, mkEdge false (emap (snd ne)))) free)]) reversed [] names
         false [] [] [] [] [])))))))).
End Trace.
