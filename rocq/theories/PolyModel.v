(* Model of utils.point_in_polygon. *)
From Coq Require Import QArith.
From Verif Require Import Base PolySpec SplitModel.
Open Scope Q_scope.

(* utils.py:2126-2132, one turn of the loop: edge from vertex i-1 to vertex i, relative to the point.
   Q's x/0 = 0 stands for numpy's inf or nan: it is only used when y1*y2 < 0, so never *)
Definition crosses (v1 v2 : pt) : bool :=
  let '(x1, y1) := v1 in let '(x2, y2) := v2 in
  let x := - y1 * (x2 - x1) / (y2 - y1) + x1 in
  qltb (y1 * y2) 0 && qltb 0 x.
(* utils.py:2125-2132 the loop; prev is verts[i-1], python's verts[-1] for i=0 *)
Fixpoint count_from (prev : pt) (verts : list pt) : Z :=
  match verts with [] => 0%Z | v :: rest => ((if crosses prev v then 1 else 0) + count_from v rest)%Z end.
(* utils.py:2112-2133 point_in_polygon, for one point and one polygon *)
Definition point_in_polygon (p : pt) (poly : list pt) : bool :=
  let verts := map (fun v => (fst v - fst p, snd v - snd p)) poly in
  (count_from (last verts (0%Q, 0%Q)) verts mod 2 =? 1)%Z.
