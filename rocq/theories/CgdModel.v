(* Model of cgrid.prune_bad_segs, cgrid.calc_bounds (along one axis) and powspec.scale_spectrum (with integer direction 1 or -1) *)
From Coq Require Import List Arith ZArith Reals Bool.
Import ListNotations.

(* cgrid.py:39,44: seg[mask] *)
Fixpoint masked {A} (mask : list bool) (l : list A) : list A := match mask, l with m :: mask, x :: l => if m then x :: masked mask l else masked mask l | _, _ => [] end.
(* cgrid.py:43: a | b *)
Definition or2 (a b : list bool) : list bool := map (fun p => fst p || snd p) (combine a b).
(* cgrid.py:34-46 for one segment; None: it is left out. finite and inside tell about points *)
Definition prune_seg {A} (finite inside : A -> bool) (seg : list A) : option (list A) :=
  if Nat.leb (length seg) 1 then None
  else
    let seg := masked (map finite seg) seg in
    let ins := map inside seg in
    let left_inside := false :: removelast ins in
    let right_inside := skipn 1 ins ++ [false] in
    let good := or2 (or2 ins left_inside) right_inside in
    let seg := masked good seg in
    if Nat.ltb 1 (length seg) then Some seg else None.
(* cgrid.py:24-47; tol and shape are in inside *)
Definition prune_bad_segs {A} (finite inside : A -> bool) (segs : list (list A)) : list (list A) :=
  flat_map (fun s => match prune_seg finite inside s with Some o => [o] | None => [] end) segs.

(* cgrid.py:226-229 along one axis: boxes are pairs from, to. None: no boxes, np.min raises *)
Definition calc_bounds (boxes : list (Z * Z)) (size : Z) : option (Z * Z) :=
  match boxes with
  | [] => None
  | (a, b) :: rest => Some (Z.min 0 (fold_left Z.min (map fst rest) a), Z.max size (fold_left Z.max (map snd rest) b))
  end.

Open Scope R_scope.
(* powspec.py:124, of one spectrum, with l None. power: ** with the exponent 1+extra, of positive numbers; up: direction 1, otherwise -1 *)
Definition factor (extra : R) (l : nat) : R := 2 * PI / Rpower (INR l * (INR l + 1)) (1 + extra).
(* powspec.py:121-126; None: no multipoles, a[...,0] raises. Only 1-d a, and extra and values are real numbers *)
Definition scale_spectrum (a : list R) (up : bool) (extra : R) : option (list R) :=
  match a with
  | [] => None
  | _ :: rest => Some (0 :: map (fun p => snd p * (if up then factor extra (fst p) else / factor extra (fst p))) (combine (seq 1 (length rest)) rest))
  end.
