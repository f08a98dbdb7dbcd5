From Coq Require Import Qround Qabs.
From Verif Require Import Base SplitModel.

(* numpy's float modulo for a positive period, on exact rationals *)
Definition qmod (a p : Q) : Q := (a - p * inject_Z (Qfloor (a / p)))%Q.

(* np.round: nearest integer, ties to even *)
Definition qround (x : Q) : Z :=
  let f := Qfloor (x + (1 # 2)) in
  if Qeq_bool (inject_Z f) (x + (1 # 2)) && Z.odd f then f - 1 else f.

(* utils.py:273-281 rewind with a numeric ref *)
Definition rewind (ref p a : Q) : Q := (ref + qmod (a - ref + p / 2) p - p / 2)%Q.

(* ref="auto": sorted is np.sort(a.reshape(-1)); an empty array raises *)
Definition rewind_auto (sorted : list Q) (p : Q) (a : list Q) : option (list Q) :=
  match nth_error sorted (Nat.div (length a) 2) with
  | None => None
  | Some ref => Some (map (rewind ref p) a)
  end.

Fixpoint map2 {A B C} (f : A -> B -> C) (l : list A) (m : list B) : list C :=
  match l, m with x :: l, y :: m => f x y :: map2 f l m | _, _ => [] end.
Fixpoint cumsum_from (a : Z) (l : list Z) : list Z :=
  match l with [] => [] | x :: l => (a + x) :: cumsum_from (a + x) l end.
Definition cumsum (l : list Z) : list Z := cumsum_from 0 l.

(* round((flat[1:]-flat[:-1])/period) *)
Fixpoint steps (p : Q) (flat : list Q) : list Z :=
  match flat with x :: (y :: _) as t => qround ((y - x) / p) :: steps p t | _ => [] end.

Inductive refmode := RLeft | RMiddle.

(* utils.py:255-267, one row *)
Definition unwind_flat (mode : refmode) (p : Q) (flat : list Q) : list Q :=
  let sub v c := (v - inject_Z c * p)%Q in
  match mode with
  | RLeft => firstn 1 flat ++ map2 sub (skipn 1 flat) (cumsum (steps p flat))
  | RMiddle =>
      let iref := Nat.div (length flat) 2 in
      let loffs := map Z.opp (rev (cumsum (rev (firstn iref (steps p flat))))) in
      let roffs := cumsum (skipn iref (steps p flat)) in
      map2 sub (firstn iref flat) loffs ++ firstn 1 (skipn iref flat) ++ map2 sub (skipn (S iref) flat) roffs
  end.

(* utils.py:237-271 unwind, along the last axis of one row, finite values *)
Definition unwind (mode : refmode) (ref p : Q) (a : list Q) : list Q :=
  unwind_flat mode p (map (rewind ref p) a).

(* the same with mask_nan=True; None stands for a nan or infinity *)
Definition unwind_nan (mode : refmode) (ref p : Q) (a : list (option Q)) : list (option Q) :=
  let flat := map (fun x => match x with Some v => rewind ref p v | None => 0%Q end) a in
  map2 (fun x v => match x with Some _ => Some v | None => None end) a (unwind_flat mode p flat).

(* aberration.py:356-364 fast_rewind, one element *)
Definition fast_rewind (ref p a : Q) : Q :=
  let off := (a - ref)%Q in
  let a := if Qle_bool p off then (a - p)%Q else a in
  if qltb off 0 then (a + p)%Q else a.
Definition fast_rewind_default (p a : Q) : Q := fast_rewind (p / 2) p a.

(* utils.py:327-346 time conversions, exact arithmetic *)
Definition ctime2mjd (t : Q) : Q := (t / 86400 + 40587)%Q.
Definition mjd2ctime (m : Q) : Q := ((m - 40587) * 86400)%Q.
Definition mjd2djd (m : Q) : Q := (m + (4800001 # 2) - 2415020)%Q.
Definition djd2mjd (d : Q) : Q := (d - (4800001 # 2) + 2415020)%Q.
Definition mjd2jd (m : Q) : Q := (m + (4800001 # 2))%Q.
Definition jd2mjd (j : Q) : Q := (j - (4800001 # 2))%Q.
Definition ctime2djd (t : Q) : Q := mjd2djd (ctime2mjd t).
Definition djd2ctime (d : Q) : Q := mjd2ctime (djd2mjd d).
Definition ctime2jd (t : Q) : Q := mjd2jd (ctime2mjd t).
Definition jd2ctime (j : Q) : Q := mjd2ctime (jd2mjd j).

(* utils.py:302-308 repeat_filler; empty d divides by zero, n=0 concatenates nothing *)
Definition repeat_filler {A} (d : list A) (n : Z) : option (list A) :=
  let d2 := d ++ rev d in
  if zlen d2 =? 0 then None else
  let nmul := (n + zlen d2 - 1) / zlen d2 in
  if nmul <=? 0 then None else Some (firstn (Z.to_nat n) (concat (repeat d2 (Z.to_nat nmul)))).

(* utils.py:283-289 cumsplit; searchsorted side="right" counts the entries <= v *)
Definition cumsplit (sizes capacities : list Z) : list Z :=
  map (fun c => zlen (filter (fun s => s <=? c) (cumsum sizes))) (cumsum capacities).
