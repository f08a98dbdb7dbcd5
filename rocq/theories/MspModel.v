(* Model of enmap.massage_spectrum at one multipole, of enmap.Geometry and of wcsutils.expand_res *)
From Coq Require Import List Arith ZArith Reals.
Import ListNotations.
Open Scope R_scope.

(* cov of one dimension, or n by n *)
Inductive spectrum := Single (c : R) | Matrix (n : nat) (c : nat -> nat -> R).
(* enmap.py:855-867. shape is that of the map. None: IndexError *)
Definition massage_spectrum (cov : spectrum) (shape : list nat) : option spectrum :=
  let '(n, c) := match cov with Single c => (1%nat, fun _ _ => c) | Matrix n c => (n, c) end in
  if Nat.eqb (length shape) 2 then (if Nat.eqb n 0 then None else Some (Single (c 0%nat 0%nat)))
  else match shape with
       | [] => None
       | s :: _ =>
           let nmin := Nat.min n s in
           Some (Matrix s (fun i j => if (Nat.ltb i nmin && Nat.ltb j nmin)%bool then c i j else 0))
       end.

Open Scope Z_scope.
(* enmap.py:300-305. The first argument has a shape and a wcs of its own, or is a shape. None: AssertionError *)
Inductive geoarg (W : Type) := Object (shape : list Z) (wcs : W) | Shape (shape : list Z).
Arguments Object {W}. Arguments Shape {W}.
Definition Geometry {W} (arg : geoarg W) (wcs : option W) : option (list Z * W) :=
  let '(sh, w) := match arg with Object s w => (s, Some w) | Shape s => (s, wcs) end in
  match wcs with None => None | Some _ => match w with Some w => Some (sh, w) | None => None end end.
(* shape[-2:] *)
Definition last2 (shape : list Z) : list Z := skipn (length shape - 2) shape.
(* enmap.py:307, 320, 321 *)
Definition npix {W} (g : list Z * W) : Z := nth (length (fst g) - 2) (fst g) 0 * nth (length (fst g) - 1) (fst g) 0.
Definition nopre {W} (g : list Z * W) : option (list Z * W) := Geometry (Shape (last2 (fst g))) (Some (snd g)).
Definition with_pre {W} (g : list Z * W) (pre : list Z) : option (list Z * W) := Geometry (Shape (pre ++ last2 (fst g))) (Some (snd g)).

(* wcsutils.py:110-122 for a res that is not None, without signs. None: AssertionError *)
Definition expand_res (res : list Z) (flip : bool) : option (list Z) :=
  let signs := if flip then [1; -1] else [-1; 1] in
  if (2 <? Z.of_nat (length res)) then None else
  let '(res, signs) := if flip then (rev res, rev signs) else (res, signs) in
  match res with [r] => Some (map (fun s => s * r) signs) | _ => Some res end.
