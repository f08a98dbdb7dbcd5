(* Models of the functions on boxes of utils.py. A box is the list of its two ends along each axis: box[{from,to},ndim] transposed. Numbers are
   exact. *)
From Coq Require Import ZArith List Reals.
From Verif Require Import Base BxsSpec.
Import ListNotations.
Local Open Scope R_scope.

(* utils.py:1308 one axis *)
Definition slice1 (a b : R * R) : R * R :=
  (Rmin (Rmax 0 (fst b - fst a)) (snd a - fst a), Rmin (Rmax 0 (snd b - fst a)) (snd a - fst a)).
Fixpoint slices (a b : box) : box :=
  match a, b with x :: a', y :: b' => slice1 x y :: slices a' b' | _, _ => [] end.
(* utils.py:1300-1309 box_slice for a single a and a single b with equally many axes. The result is reshaped to (2,2), which raises (None) unless
   there are two axes. Boxes with different numbers of axes, which numpy would broadcast or refuse, are not modelled. *)
Definition box_slice (a b : box) : option box :=
  let s := slices a b in if Nat.eqb (length s) 2 then Some s else None.
(* utils.py:1312-1314 *)
Fixpoint prod_sides (a : box) : R := match a with [] => 1 | e :: a' => (snd e - fst e) * prod_sides a' end.
Definition box_area (a : box) : R := Rabs (prod_sides a).
(* utils.py:1316-1322 *)
Definition box_overlap (a b : box) : option R := option_map box_area (box_slice a b).
(* utils.py:1300-1322 for arrays of boxes: fb[None,:] and fa[:,None], one row per a and one column per b *)
Definition box_overlaps (a b : list box) : list (list (option R)) := map (fun x => map (fun y => box_overlap x y) b) a.

(* utils.py:1324-1330 widen_box, one axis and the margin of this axis *)
Definition widen1 (margin : R) (relative : bool) (e : R * R) : R * R :=
  let m := if relative then (snd e - fst e) * margin else margin in
  let m := if Rlt_dec (snd e) (fst e) then m * (-1) else m in
  (fst e - m / 2, snd e + m / 2).
Definition widen_box (b : box) (margin : R) (relative : bool) : box := map (widen1 margin relative) b.

(* np.sign *)
Definition sign (x : R) : R := if Rlt_dec 0 x then 1 else if Rlt_dec x 0 then -1 else 0.
(* utils.py:1332-1340 pad_box, one number for all axes *)
Definition pad1 (padding : R) (e : R * R) : R * R :=
  let s := sign (snd e - fst e) in (fst e - padding * s, snd e + padding * s).
Definition pad_box (b : box) (padding : R) : box := map (pad1 padding) b.

(* utils.py:1342-1357 unwrap_range, one range. The in-place change of the caller's array is not modelled. *)
Definition rfl (x : R) : R := IZR (Int_part x).
Definition unwrap_range (r : R * R) (nwrap : R) : R * R :=
  let hi := snd r - rfl ((snd r - fst r) / nwrap) * nwrap in
  let k := rfl (hi / nwrap) * nwrap in
  (fst r - k, hi - k).

(* utils.py:1270, 1277: box[b,bi] for the lowest ndim bits b of i. Numbers have 64 bits, so this is for up to 64 axes. *)
Definition corner (b : box) (i : nat) : list R :=
  map (fun k => (if Nat.testbit i k then snd else fst) (nth k b (0, 0))) (seq 0 (length b)).
(* utils.py:1272-1277 *)
Definition box2corners (b : box) : list (list R) := map (corner b) (seq 0 (2 ^ length b)).
(* np.linspace with n points; for n = 1 the first end *)
Definition linspace (x y : R) (n : nat) : list R := map (fun k => x + INR k * ((y - x) / INR (n - 1))) (seq 0 n).
(* y[:,i] = x for one point *)
Definition set_at (i : nat) (x : R) (p : list R) : list R := firstn i p ++ x :: skipn (S i) p.
(* utils.py:1279-1298 box2contour; nperedge has one number for each axis *)
Definition box2contour (b : box) (nperedge : list nat) : list (list R) :=
  flat_map (fun i =>
    let xs := linspace (fst (nth i b (0, 0))) (snd (nth i b (0, 0))) (nth i nperedge O) in
    flat_map (fun j => if Nat.testbit j i then [] else map (fun x => set_at i x (corner b j)) xs)
      (seq 0 (2 ^ length b)))
    (seq 0 (length b)).
