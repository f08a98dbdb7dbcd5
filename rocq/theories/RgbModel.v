(* Model of utils.regularize_beam for a beam of one dimension, without normalize *)
From Coq Require Import List Arith Reals.
From Verif Require Import RgbSpec.
Import ListNotations.
Open Scope R_scope.

(* np.max *)
Fixpoint npmax (m : R) (l : list R) : R := match l with [] => m | a :: l' => npmax (Rmax m a) l' end.
(* np.argmin of the truth values above: the first that is false, or 0 if there is none *)
Fixpoint first_false (l : list bool) : option nat := match l with [] => None | false :: _ => Some 0%nat | true :: l' => option_map S (first_false l') end.
Definition argmin (l : list bool) : nat := match first_false l with Some i => i | None => 0%nat end.
Definition isabove (v : R) (b : R) : bool := if Rlt_dec v b then true else false.
(* utils.py:1053-1079. None: an exception *)
Definition regularize_beam (beam : list R) (cutoff : R) (nl : option nat) : option (list R) :=
  match beam with
  | [] => None
  | b0 :: rest =>
      let nl := match nl with Some n => n | None => length beam end in
      let vcut := npmax b0 rest * cutoff in
      let above := map (isabove vcut) beam in
      let lcut := argmin above in
      let lcut := if Nat.eqb lcut 0 then (length above - 1)%nat else lcut in
      if Nat.ltb nl lcut then Some (firstn nl beam)
      else
        let obeam := fun l => vcut * Rpower (INR (Nat.max 1 l) / INR lcut) (2 * ln cutoff) in
        (* mask.reshape(-1)[lcut] = 1 of a mask of length nl *)
        if Nat.leb nl lcut then None
        else Some (map (fun l => if Nat.ltb l lcut then nth l beam 0 else obeam l) (seq 0 nl))
  end.
