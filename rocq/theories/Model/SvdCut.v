(** Choice of the singular values kept by a truncated SVD.  include/TAT/svd.hpp:354-389.
    Real numbers are an abstract type with zero and operator>. *)
From Coq Require Import List Bool Arith.
From Verif Require Import Base.Outcome Base.SMap Model.Symmetry.
Import ListNotations.

Section Cut.
  Context {S V : Type} {SS : Sym S} (vzero : V) (greater : V -> V -> bool).

  (** total_dimension, 355-358 *)
  Definition total_dimension (sing : list (S * list V)) : nat := fold_left (fun n sv => n + length (snd sv)) sing 0.

  (** the loop over result_s, 370-377.  vector_s[this_remain] is unchecked *)
  Definition find_maximum (sing : list (S * list V)) (remain : list (S * nat)) : res (S * V) :=
    foldM (fun best sv =>
      bind (at_or_throw (mfind (fst sv) remain)) (fun r =>
      if Nat.eqb r (length (snd sv)) then Ok best
      else bind (get_or_ub (nth_error (snd sv) r)) (fun v => if greater v (snd best) then Ok (fst sv, v) else Ok best)))
      sing (szero, vzero).

  Definition increment (k : S) (m : list (S * nat)) : res (list (S * nat)) :=
    bind (at_or_throw (mfind k m)) (fun n => Ok (mset k (n + 1) m)).

  (** 367-380 *)
  Fixpoint cut_loop (sing : list (S * list V)) (n : nat) (u v : list (S * nat)) : res (list (S * nat) * list (S * nat)) :=
    match n with
    | 0 => Ok (u, v)
    | Datatypes.S n' =>
        bind (find_maximum sing u) (fun best =>
        bind (increment (fst best) u) (fun u' =>
        bind (increment (sneg (fst best)) v) (fun v' => cut_loop sing n' u' v')))
    end.

  (** vector::resize *)
  Definition resize (n : nat) (l : list V) : list V := firstn n l ++ repeat vzero (n - length l).

  (** 382-388 *)
  Definition trim (u : list (S * nat)) (sing : list (S * list V)) : res (list (S * list V)) :=
    foldM (fun sing sr =>
      if Nat.eqb (snd sr) 0 then Ok (merase (fst sr) sing)
      else bind (at_or_throw (mfind (fst sr) sing)) (fun l => Ok (mset (fst sr) (resize (snd sr) l) sing)))
      u sing.

  (** 354-389: remain_dimension_u, remain_dimension_v (empty: nothing is cut) and the singular values.  None: cut is Size(-1) *)
  Definition svd_cut (sing : list (S * list V)) (cut : option nat) : res (list (S * nat) * list (S * nat) * list (S * list V)) :=
    match cut with
    | Some n =>
        if Nat.ltb n (total_dimension sing) then
          let u := fold_left (fun m sv => mset (fst sv) 0 m) sing [] in
          let v := fold_left (fun m sv => mset (sneg (fst sv)) 0 m) sing [] in
          bind (cut_loop sing n u v) (fun uv =>
          bind (trim (fst uv) sing) (fun sing' => Ok (fst uv, snd uv, sing')))
        else Ok ([], [], sing)
    | None => Ok ([], [], sing)
    end.
End Cut.
