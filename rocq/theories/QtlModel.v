(* Models of utils.py search, weighted_quantile and weighted_median along one axis, with exact real numbers. What np.argsort
   gives is a parameter: the list of values and weights in the order it finds. *)
From Coq Require Import Reals.
From Verif Require Import Base.
Open Scope R_scope.

(* utils.py:379-388 search, for one list and value *)
Fixpoint search (left_ : bool) (a : list R) (v : R) : nat :=
  match a with
  | [] => O
  | x :: a => ((if left_ then (if Rlt_dec x v then 1 else 0) else (if Rle_dec x v then 1 else 0)) + search left_ a v)%nat
  end.

(* np.cumsum *)
Fixpoint cumsum (acc : R) (l : list R) : list R :=
  match l with [] => [] | x :: l => (acc + x) :: cumsum (acc + x) l end.

(* utils.py:424-428 icum *)
Definition icum (ivar : list R) : list R :=
  let c := cumsum 0 ivar in
  let ends := last c 0 in
  map (fun cw => (fst cw - / 2 * snd cw) / (if Rlt_dec 0 ends then ends else 1)) (combine c ivar).

(* utils.py:390-452 weighted_quantile, from 421 on: sorted is the list after take_along_axis *)
Definition weighted_quantile (sorted : list (R * R)) (quantile : R) : option R :=
  let ivar := map snd sorted in
  let mp := map fst sorted in
  let n := length sorted in
  let ic := icum ivar in
  let i1 := search true ic quantile in
  match sorted with
  | [] => None (* icum[:,-1] of nothing *)
  | _ =>
      if Nat.eqb i1 0 then Some (nth 0 mp 0)
      else if Nat.eqb i1 n then Some (nth (n - 1) mp 0)
      else
        let x := (quantile - nth (i1 - 1) ic 0) / (nth i1 ic 0 - nth (i1 - 1) ic 0) in
        Some (nth (i1 - 1) mp 0 * (1 - x) + nth i1 mp 0 * x)
  end.

(* utils.py:454-456 weighted_median *)
Definition weighted_median (sorted : list (R * R)) : option R := weighted_quantile sorted (/ 2).
