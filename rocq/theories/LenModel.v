(* Models of the displacements of lensing.py and of utils.pole_wrap. Numbers are exact; None stands for nan. *)
From Coq Require Import Reals.
From Verif Require Import Base PixModel SkyrModel.
Open Scope R_scope.

(* a division whose result is not finite gives nan further on *)
Definition dv (x y : R) : option R := if Req_EM_T y 0 then None else Some (x / y).

(* lensing.py:327-357 offset_by_grad_helper for one sample: theta and phi of the new position, and cos and sin of the rotation if pol. *)
Definition offset_by_grad_helper (ipos grad : R * R) (pol : bool) : (R * option R) * option (option (R * R)) :=
  let '(g0, g1) := if Req_EM_T (fst grad) 0 then if Req_EM_T (snd grad) 0 then (/ 10 ^ 20, / 10 ^ 20) else grad else grad in
  let d := sqrt (g0 ^ 2 + g1 ^ 2) in
  let g0 := g0 / d in let g1 := g1 / d in
  let cosd := cos d in let sind := sin d in
  let cost := cos (fst ipos) in let sint := sin (fst ipos) in
  let ocost := cosd * cost - sind * sint * g0 in
  let osint := sqrt (1 - ocost ^ 2) in
  let ophi := bind (dv (sind * g1) osint) (fun q => Some (snd ipos + asin q)) in
  if negb pol then ((acos ocost, ophi), None)
  else
    (* for sint = 0 the quotient is infinite, and A is zero, unless sind is zero too *)
    let A := if Req_EM_T sint 0 then (if Req_EM_T sind 0 then None else Some 0) else dv g1 (sind * cost / sint + g0 * cosd) in
    let rot := bind A (fun A =>
      let nom1 := g0 + g1 * A in
      let denom := 1 + A ^ 2 in
      let cosgam := 2 * nom1 ^ 2 / denom - 1 in
      let singam := 2 * nom1 * (g1 - g0 * A) / denom in
      Some (cosgam, singam)) in
    ((acos ocost, ophi), Some rot).

(* a position: dec, ra and, if there is a third row, the rotation *)
Record ipos := IP { i_dec : R; i_ra : R; i_rot : option R }.
Record opos := OP { o_dec : R; o_ra : option R; o_rot : option (option R) }.

(* lensing.py:359-368 pole_wrap *)
Definition pole_wrap (p : R * R) : R * R :=
  let a := if Rlt_dec (PI / 2) (fst p) then (PI - fst p, snd p + PI) else p in
  if Rlt_dec (fst a) (- PI / 2) then (- PI - fst a, snd a + PI) else a.

(* lensing.py:310-321 one sample of a chunk *)
Definition geodesic_one (three : bool) (p : ipos) (g : R * R) : opos :=
  let small_grad := (- fst g, snd g) in
  let small_ipos := (PI / 2 - i_dec p, i_ra p) in
  let '(small_opos, small_orot) := offset_by_grad_helper small_ipos small_grad three in
  OP (PI / 2 - fst small_opos) (snd small_opos)
     (match small_orot with
      | None => None
      | Some r => Some (bind r (fun cs => let t := atan2 (snd cs) (fst cs) in Some (match i_rot p with None => t | Some r0 => t + r0 end)))
      end).
(* lensing.py:321-326 *)
Definition flat_one (three : bool) (p : ipos) (g : R * R) : option opos :=
  bind (dv (snd g) (cos (i_dec p))) (fun q =>
  let w := pole_wrap (i_dec p + fst g, i_ra p + q) in
  Some (OP (fst w) (Some (snd w)) (if three then Some (Some 0) else None))).
(* lensing.py:304-320: the loop over chunks of step samples *)
Fixpoint chunks {A B} (step : nat) (f : A -> B) (fuel : nat) (l : list A) : list B :=
  match fuel with
  | O => []
  | S k => match l with [] => [] | _ => map f (firstn step l) ++ chunks step f k (skipn step l) end
  end.
(* lensing.py:288-326 offset_by_grad. rows3: ipos has three rows *)
Definition ncomp3 (pol : option bool) (rows3 : bool) : bool := match pol with Some false => false | Some true => true | None => rows3 end.
Definition offset_by_grad (step : nat) (l : list (ipos * (R * R))) (rows3 : bool) (pol : option bool) : list opos :=
  chunks step (fun pg => geodesic_one (ncomp3 pol rows3) (fst pg) (snd pg)) (length l) l.

(* utils.py:1368-1384 pole_wrap *)
Definition utils_pole_wrap (p : R * R) : R * R :=
  let halforbit := Int_part ((fst p + PI / 2) / PI) in
  let lat := fst p - PI * IZR halforbit in
  if (halforbit mod 2 =? 0)%Z then (lat, snd p) else (- lat, snd p + PI).

(* enmap.py:1357-1371 rotate_pol on Q and U of one pixel *)
Definition rotate_pol (spin angle : R) (qu : R * R) : R * R :=
  if Req_EM_T spin 0 then qu
  else let c := cos (spin * angle) in let s := sin (spin * angle) in (c * fst qu - s * snd qu, s * fst qu + c * snd qu).
(* lensing.py:228-231 of lens_map_curved: Q and U of the field at the new position, with the rotation that offset_by_grad gave *)
Definition lensed_pol (rot : R) (qu : R * R) : R * R := rotate_pol 2 rot qu.
