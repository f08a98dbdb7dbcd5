(* Model of enmap.neighborhood_pixboxes, for one position and a plate carree map. Numbers are real. *)
From Coq Require Import Reals ZArith.
From Verif Require Import BldSpec BldModel NbhSpec.
Open Scope R_scope.

(* enmap.py:538-549 skybox2pixbox for a separable geometry, as C91 describes it: the first corner may be any number of turns off, the other follows *)
Definition skybox2pixbox (turn : Z) (w : rwcs) (dec1 ra1 dec2 ra2 : R) : (R * R) * (R * R) :=
  let y d := (degrees d - rvy w) / rdy w + rpy w - 1 in
  let x a := (degrees a - rvx w) / rdx w + rpx w - 1 + 360 / rdx w * IZR turn in
  ((y dec1, x ra1), (y dec2, x ra2)).
(* enmap.py:764-791; None: an exception (plain coordinates: sky2pix lacks arguments) or a nan (r = 0 at a pole: 0*inf) *)
Definition neighborhood_pixbox (turn : Z) (w : rwcs) (dec ra r : R) : option ((Z * Z) * (Z * Z)) :=
  match rsys w with
  | Plain => None
  | _ =>
    let dec1 := Rmax (dec - r) (- PI / 2) in
    let dec2 := Rmin (dec + r) (PI / 2) in
    let m := Rmin (cos dec1) (cos dec2) in
    match (if Req_EM_T m 0 then (if Req_EM_T r 0 then None else Some PI) else Some (Rmin (r * (1 / m)) PI)) with
    | None => None
    | Some dra =>
        let '((y1, x1), (y2, x2)) := skybox2pixbox turn w dec1 (ra - dra) dec2 (ra + dra) in
        let a := roundR y1 in let b := roundR y2 in let c := roundR x1 in let d := roundR x2 in
        Some ((Z.min a b, Z.min c d), (Z.max a b + 1, Z.max c d + 1))%Z
    end
  end.
