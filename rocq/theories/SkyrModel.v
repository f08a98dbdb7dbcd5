(* Models of pixel areas and of polarisation rotations. *)
From Coq Require Import Reals.
From Verif Require Import Base SliceSpec SliceModel RangeModel.
Open Scope R_scope.

(* np.clip(x, a, b) *)
Definition clip (a b x : R) : R := Rmin b (Rmax a x).

(* x[1:] - x[:-1] *)
Fixpoint rdiff (l : list R) : list R :=
  match l with
  | x :: r => match r with y :: _ => (y - x) :: rdiff r | [] => [] end
  | [] => []
  end.

(* enmap.py:1108: the y coordinates of the pixel edges, arange(ny+1)-0.5 *)
Definition edges (ny : nat) : list R := map (fun i => INR i - 1 / 2) (seq 0 (S ny)).

(* enmap.py:1102-1132 pixshapes_cyl(signed=False). dec: the declination of a y pixel coordinate, as pix2sky gives it, taken
   finite (1112-1113 replace a non-finite first/last edge by a pole). cdelt in radians. One (height, width) pair
   per row; None: a division by a zero height, which gives nan. *)
Definition pixshapes_cyl (dec : R -> R) (cdelt : R) (ny : nat) : list (option (R * R)) :=
  let d := map (fun y => clip (- PI / 2) (PI / 2) (dec y)) (edges ny) in
  let heights := rdiff d in
  let sd := rdiff (map sin d) in
  map (fun p => if Req_EM_T (fst p) 0 then None else Some (Rabs (fst p), Rabs (cdelt * snd p / fst p))) (combine heights sd).

(* enmap.py:1158-1164 pixsizemap of a cylindrical map: one row of nx equal values per y *)
Definition pixsizemap (dec : R -> R) (cdelt : R) (ny nx : nat) : list (list (option R)) :=
  map (fun hw => repeat (option_map (fun p => fst p * snd p) hw) nx) (pixshapes_cyl dec cdelt ny).

(* enmap.py:984-988 area_cyl *)
Definition area_cyl (dec : R -> R) (cdelt : R) (ny nx : nat) : R :=
  let a := dec (- (1 / 2)) in let b := dec (INR ny - 1 + 1 / 2) in
  let dec1 := Rmin a b in let dec2 := Rmax a b in
  let dec1 := Rmax (- PI / 2) dec1 in let dec2 := Rmin (PI / 2) dec2 in
  (sin dec2 - sin dec1) * Rabs cdelt * INR nx.

(* emap[comp], comp an index that may be negative; None: IndexError *)
Definition pyidx {A} (l : list A) (c : Z) : option nat :=
  if (0 <=? c)%Z && (c <? zlen l)%Z then Some (Z.to_nat c)
  else if (- zlen l <=? c)%Z && (c <? 0)%Z then Some (Z.to_nat (c + zlen l)) else None.

(* enmap.py:1357-1371 rotate_pol; emap: the components along the chosen axis, at one pixel *)
Definition rotate_pol (emap : list R) (angle : R) (c0 c1 : Z) (spin : R) : option (list R) :=
  if Req_EM_T spin 0 then Some emap
  else
    let c := cos (spin * angle) in let s := sin (spin * angle) in
    match pyidx emap c0, pyidx emap c1 with
    | Some i, Some j =>
        let a := nth i emap 0 in let b := nth j emap 0 in
        Some (upd (upd emap i (c * a - s * b)) j (s * a + c * b))
    | _, _ => None
    end.

(* aberration.py:272-283 rotate_pol at one pixel; the two components are changed in place, one after the other *)
Definition rotate_pol_inplace (q u gamma spin : R) : R * R :=
  if Req_EM_T spin 0 then (q, u)
  else
    let c := cos (spin * gamma) in let s := sin (spin * gamma) in
    let q' := q * c + u * s in let u' := - q * s + u * c in (q', u').

(* np.arctan2 *)
Definition atan2 (y x : R) : R :=
  if Rlt_dec 0 x then atan (y / x)
  else if Rlt_dec x 0 then (if Rle_dec 0 y then atan (y / x) + PI else atan (y / x) - PI)
  else if Rlt_dec 0 y then PI / 2 else if Rlt_dec y 0 then - PI / 2 else 0.

(* enmap.py:1346-1355 queb_rotmat at one (ly, lx): the matrix rows ((c,-s),(s,c)) *)
Definition queb_rotmat (l0 l1 : R) (inverse iau : bool) (spin : Z) : (R * R) * (R * R) :=
  let sign := 1 in
  let sign := if iau then - sign else sign in
  let sign := if inverse then - sign else sign in
  let a := IZR spin * atan2 (sign * l1) l0 in
  ((cos a, - sin a), (sin a, cos a)).

(* enmap.py:1373-1382 map_mul for a 2x2 matrix and 2 components, at one pixel: einsum ab,b->a *)
Definition map_mul2 (m : (R * R) * (R * R)) (v : R * R) : R * R :=
  (fst (fst m) * fst v + snd (fst m) * snd v, fst (snd m) * fst v + snd (snd m) * snd v).
