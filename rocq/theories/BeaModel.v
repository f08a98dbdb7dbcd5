(* Model of utils.compress_beam and utils.expand_beam, with real numbers *)
From Coq Require Import Reals.
From Verif Require Import BldModel SkyrModel.
Open Scope R_scope.

Section Beam.
(* np.linalg.eigh of ((a,c),(c,b)), called as eigh a c b: the eigenvalues and the matrix of vectors by rows *)
Variable eigh : R -> R -> R -> (R * R) * ((R * R) * (R * R)).

(* utils.py:1024-1030; None: inf or nan *)
Definition compress_beam (sigma0 sigma1 phi : R) : option (R * R * R) :=
  if Req_EM_T sigma0 0 then None else if Req_EM_T sigma1 0 then None else
  let c := cos phi in let s := sin phi in
  let d0 := / sigma0 ^ 2 in let d1 := / sigma1 ^ 2 in
  (* R.dot(C), with R = ((c,-s),(s,c)) *)
  let '(m00, m01, m10, m11) := (c * d0, - s * d1, s * d0, c * d1) in
  (* .dot(R.T) *)
  Some (m00 * c + m01 * - s, m10 * s + m11 * c, m00 * s + m01 * c).
(* x % y for positive y *)
Definition pymod (x y : R) : R := x - y * IZR (floorR (x / y)).
(* utils.py:1032-1042; None: inf or nan *)
Definition expand_beam (irads : R * R * R) : option (R * R * R) :=
  let '(a, b, c) := irads in
  let '((e0, e1), ((v00, v01), (v10, v11))) := eigh a c b in
  let phi := atan2 v10 v00 in
  if Rlt_dec 0 e0 then
    if Rlt_dec 0 e1 then
      let sigma0 := / sqrt e0 in let sigma1 := / sqrt e1 in
      let '(sigma0, sigma1, phi) := if Rlt_dec sigma0 sigma1 then (sigma1, sigma0, phi + PI / 2) else (sigma0, sigma1, phi) in
      Some (sigma0, sigma1, pymod phi PI)
    else None
  else None.
End Beam.
