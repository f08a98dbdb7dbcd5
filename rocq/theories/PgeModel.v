(* Model of utils.poly_edge_dist for one point and one polygon, with real numbers *)
From Coq Require Import Reals List Arith.
From Verif Require Import RotSpec RotModel SkyrModel.
Import ListNotations.
Open Scope R_scope.

Definition cross (a b : vec) : vec :=
  let '((a1, a2), a3) := a in let '((b1, b2), b3) := b in ((a2 * b3 - a3 * b2, a3 * b1 - a1 * b3), a1 * b2 - a2 * b1).
(* v / sum(v**2)**0.5; None: nan *)
Definition normalised (v : vec) : option vec := if Req_EM_T (dot v v) 0 then None else Some (scale (/ sqrt (dot v v)) v).
(* utils.py:2150-2171 the distance from one edge. Comparisons with nan are false, so that equal vertices leave dist_outside *)
Definition edge_dist (p v1 v2 : vec) : R :=
  let dist_outside := Rmin (acos (clip (-1) 1 (dot p v1))) (acos (clip (-1) 1 (dot p v2))) in
  match normalised (cross v1 v2) with
  | None => dist_outside
  | Some vz =>
    match normalised (cross vz v1) with
    | None => dist_outside
    | Some vy =>
        let pang := atan2 (dot p vy) (dot p v1) in
        let ang2 := atan2 (dot v2 vy) (dot v2 v1) in
        if Rle_dec 0 pang
        then if Rlt_dec pang ang2 then Rabs (acos (clip (-1) 1 (dot p vz)) - PI / 2) else dist_outside
        else dist_outside
    end
  end.
(* utils.py:2136-2173; None: the minimum of nothing raises *)
Definition poly_edge_dist (point : R * R) (poly : list (R * R)) : option R :=
  let p := ang2rect false point in
  let vertices := map (ang2rect false) poly in
  let n := length poly in
  match map (fun i => edge_dist p (nth i vertices north) (nth ((i + 1) mod n) vertices north)) (seq 0 n) with
  | [] => None
  | d :: ds => Some (fold_left Rmin ds d)
  end.
